(** * ClusterGeom: the labeller's neighbour arithmetic against the specification. *)

From Coq Require Import ZArith List Bool Lia.
From Verif Require Import Base BaseLemmas Cluster ClusterInv ClusterRefine SpecCluster.
Import ListNotations.
Open Scope Z_scope.
Local Opaque Z.mul Z.add Z.sub.

Fixpoint inside (shape c : list Z) : Prop :=
  match shape, c with
  | [], [] => True
  | n :: s', x :: c' => 0 <= x < n /\ inside s' c'
  | _, _ => False
  end.

Fixpoint ravel (shape c : list Z) : Z :=
  match shape, c with
  | n :: s', x :: c' => x * zprod s' + ravel s' c'
  | _, _ => 0
  end.

Lemma inside_length : forall shape c, inside shape c -> length c = length shape.
Proof. induction shape; destruct c; simpl; intros; try tauto. f_equal. apply IHshape. tauto. Qed.

Lemma inside_pos : forall shape c, inside shape c -> Forall (fun n => 0 < n) shape.
Proof.
  induction shape; destruct c; simpl; intros; try tauto; constructor.
  - lia.
  - apply (IHshape c). tauto.
Qed.

Lemma coords_inside : forall shape p, Forall (fun n => 0 < n) shape -> pixel shape p ->
  inside shape (coords shape p).
Proof.
  unfold pixel. induction shape; intros p HP Hp; cbn [coords inside zprod] in *; auto.
  inversion HP; subst. pose proof (zprod_pos _ H2).
  split.
  - split; [apply Z.div_pos; lia|]. apply Z.div_lt_upper_bound; nia.
  - apply IHshape; auto. apply Z.mod_pos_bound. lia.
Qed.

Lemma ravel_range : forall shape c, inside shape c -> 0 <= ravel shape c < zprod shape.
Proof.
  induction shape; destruct c; cbn [inside ravel zprod]; intros; try tauto; try lia.
  destruct H as [H1 H2]. specialize (IHshape c H2). nia.
Qed.

Lemma coords_ravel : forall shape c, inside shape c -> coords shape (ravel shape c) = c.
Proof.
  induction shape; destruct c; cbn [inside ravel coords]; intros; try tauto.
  destruct H as [H1 H2]. pose proof (ravel_range _ _ H2).
  f_equal.
  - rewrite Z.div_add_l by lia. rewrite Z.div_small by lia. lia.
  - rewrite Z.add_comm, Z.mod_add by lia. rewrite Z.mod_small by lia. auto.
Qed.

Lemma ravel_coords : forall shape p, Forall (fun n => 0 < n) shape -> pixel shape p ->
  ravel shape (coords shape p) = p.
Proof.
  unfold pixel. induction shape; intros p HP Hp; cbn [coords ravel zprod] in *; [lia|].
  inversion HP; subst. pose proof (zprod_pos _ H2).
  rewrite IHshape; auto.
  - pose proof (Z.div_mod p (zprod shape)). lia.
  - apply Z.mod_pos_bound. lia.
Qed.

Lemma coords_inj : forall shape p q, Forall (fun n => 0 < n) shape -> pixel shape p ->
  pixel shape q -> coords shape p = coords shape q -> p = q.
Proof.
  intros. rewrite <- (ravel_coords shape p), <- (ravel_coords shape q); auto. congruence.
Qed.

Lemma dot_strides : forall shape c, inside shape c -> dot c (strides shape) = ravel shape c.
Proof.
  induction shape; destruct c; cbn [inside dot strides ravel]; intros; try tauto.
  destruct H as [H1 H2]. rewrite IHshape by auto.
  destruct (a =? 1) eqn:E; auto. assert (z = 0) as -> by lia. lia.
Qed.

Lemma unravel_strides_coords : forall shape p, Forall (fun n => 0 < n) shape ->
  pixel shape p -> unravel_strides (strides shape) p = coords shape p.
Proof.
  unfold pixel. induction shape; intros p HP Hp; cbn [strides unravel_strides coords zprod] in *; auto.
  inversion HP; subst. pose proof (zprod_pos _ H2).
  destruct (a =? 1) eqn:E.
  - assert (a = 1) by lia. subst a. rewrite Z.eqb_refl.
    rewrite Z.div_small by lia. rewrite Z.mod_small by lia. rewrite IHshape; auto. lia.
  - replace (zprod shape =? 0) with false by lia.
    rewrite Z.quot_div_nonneg, Z.rem_mod_nonneg by lia. rewrite IHshape; auto.
    apply Z.mod_pos_bound; lia.
Qed.

Lemma rem_wrap : forall n i, 0 < n -> Z.rem (n + Z.rem i n) n = i mod n.
Proof.
  intros. pose proof (Z.rem_bound_abs i n ltac:(lia)).
  rewrite Z.rem_mod_nonneg by lia.
  pose proof (Z.quot_rem i n ltac:(lia)) as Hq.
  replace (n + Z.rem i n) with (i + (1 - Z.quot i n) * n) by lia.
  apply Z.mod_add. lia.
Qed.

Lemma shift_loop_spec : forall per shape c d, inside shape c -> length d = length shape ->
  match shift_loop per shape c d with
  | Some r => inside shape r /\ moved per shape c d r
  | None => per = false /\ forall r, moved per shape c d r -> ~ inside shape r
  end.
Proof.
  intros per. induction shape as [|n shape IH]; intros [|x c] [|t d] HI HL; simpl in HL; try (simpl in HI; tauto); try discriminate.
  - simpl. auto.
  - cbn [inside] in HI. destruct HI as [H1 H2].
    assert (HL' : length d = length shape) by lia. specialize (IH c d H2 HL').
    cbn [shift_loop]. destruct per.
    + destruct (shift_loop true shape c d) as [r|].
      * cbn [inside moved]. rewrite rem_wrap by lia. destruct IH. repeat split; auto;
        apply Z.mod_pos_bound; lia.
      * destruct IH; discriminate.
    + destruct ((x + t <? 0) || (n <=? x + t)) eqn:E.
      * split; auto. intros [|y r]; cbn [moved inside]; [tauto|]. intros [-> _] [Hy _]. lia.
      * destruct (shift_loop false shape c d) as [r|].
        -- cbn [inside moved]. destruct IH. repeat split; auto; lia.
        -- destruct IH as [_ IH]. split; auto. intros [|y r]; cbn [moved inside]; [tauto|].
           intros [_ Hm] [_ Hi]. apply (IH r); auto.
Qed.

Lemma moved_functional : forall per shape c d r r', moved per shape c d r ->
  moved per shape c d r' -> r = r'.
Proof.
  intros per. induction shape as [|n shape IH]; intros [|x c] [|t d] [|y r] [|y' r'] H H';
  simpl in *; try tauto.
  destruct H as [H1 H2], H' as [H1' H2']. f_equal; [destruct per; congruence|eauto].
Qed.

(** General statement of a correct neighbour lookup. *)
Definition compare_spec (g : cfg) (idx : Z) (d : list Z) : Prop :=
  match get_compare g idx d with
  | Ok c => (0 <= c < zprod (g_shape g) /\
             moved (g_per g) (g_shape g) (coords (g_shape g) idx) d (coords (g_shape g) c)) \/
            (g_per g = false /\ c = -1 /\
             forall q, pixel (g_shape g) q ->
               ~ moved (g_per g) (g_shape g) (coords (g_shape g) idx) d (coords (g_shape g) q))
  | _ => False
  end.

(** The generic branch (rank >= 3) is right for every offset. *)
Lemma compare_generic : forall shape per idx d,
  Forall (fun n => 0 <= n) shape -> pixel shape idx -> length d = length shape ->
  match shift_loop per shape (unravel_strides (strides shape) idx) d with
  | None => per = false /\ forall q, pixel shape q ->
              ~ moved per shape (coords shape idx) d (coords shape q)
  | Some ix => pixel shape (dot ix (strides shape)) /\
               moved per shape (coords shape idx) d (coords shape (dot ix (strides shape)))
  end.
Proof.
  intros shape per idx d HP Hp HL.
  assert (HP' : Forall (fun n => 0 < n) shape) by (apply zprod_pos_inv; unfold pixel in Hp; auto; lia).
  rewrite unravel_strides_coords by auto.
  pose proof (shift_loop_spec per shape (coords shape idx) d (coords_inside _ _ HP' Hp) HL) as H.
  destruct (shift_loop per shape (coords shape idx) d) as [r|].
  - destruct H as [H1 H2]. rewrite dot_strides by auto. split; [apply ravel_range; auto|].
    now rewrite coords_ravel by auto.
  - destruct H as [H1 H2]. split; auto. intros q Hq Hm. apply (H2 _ Hm). apply coords_inside; auto.
Qed.

Lemma s64_id : forall x, - two63 <= x < two63 -> s64 x = x.
Proof.
  unfold s64, u64, two63, two64. intros x Hx.
  destruct (Z_lt_le_dec x 0).
  - replace (x mod 18446744073709551616) with (x + 18446744073709551616).
    + destruct (_ <? _) eqn:E; lia.
    + rewrite <- (Z.mod_add x 1) by lia. rewrite Z.mod_small; lia.
  - rewrite Z.mod_small by lia. destruct (_ <? _) eqn:E; lia.
Qed.

Lemma s64_small : forall x n, 0 <= x < n -> n < big -> s64 x = x.
Proof. intros. apply s64_id. unfold big, two63 in *. lia. Qed.

Lemma wrap_range : forall n x d, 0 < n -> 0 <= wrap_unsigned n x d < n.
Proof. intros. unfold wrap_unsigned. apply Z.mod_pos_bound; auto. Qed.

Lemma wrap_right : forall n x d, 0 < n < big -> 0 <= x < n -> - n <= d < big ->
  wrap_unsigned n x d = (x + d) mod n.
Proof.
  intros. unfold wrap_unsigned, u64, two64, big in *.
  rewrite (Z.mod_small (n + x)) by lia. rewrite (Z.mod_small (n + x + d)) by lia.
  replace (n + x + d) with (x + d + 1 * n) by lia. apply Z.mod_add. lia.
Qed.

Lemma coords1 : forall n p, coords [n] p = [p].
Proof. intros. cbn [coords zprod]. now rewrite Z.div_1_r. Qed.

Lemma coords2 : forall n0 n1 p, coords [n0; n1] p = [p / n1; p mod n1].
Proof. intros. cbn [coords zprod]. now rewrite Z.mul_1_r, Z.div_1_r. Qed.

Lemma zprod1 : forall n, zprod [n] = n.
Proof. intros; cbn [zprod]; lia. Qed.
Lemma zprod2 : forall n m, zprod [n; m] = n * m.
Proof. intros; cbn [zprod]; lia. Qed.

Lemma len1 : forall (d : list Z), length d = 1%nat -> exists a, d = [a].
Proof. intros [|a [|b d]] H; try discriminate. eauto. Qed.
Lemma len2 : forall (d : list Z), length d = 2%nat -> exists a b, d = [a; b].
Proof. intros [|a [|b [|c d]]] H; try discriminate. eauto. Qed.

(** Rank >= 3. *)
Lemma get_compare_3 : forall g idx d n0 n1 n2 t, g_shape g = n0 :: n1 :: n2 :: t ->
  Forall (fun n => 0 <= n) (g_shape g) -> pixel (g_shape g) idx ->
  length d = length (g_shape g) -> compare_spec g idx d.
Proof.
  intros g idx d n0 n1 n2 t E HP Hp HL. unfold compare_spec, get_compare.
  assert (HP' : Forall (fun n => 0 < n) (g_shape g)) by (apply zprod_pos_inv; unfold pixel in Hp; auto; lia).
  assert (Hex : existsb (fun n => n =? 0) (g_shape g) = false).
  { destruct (existsb _ _) eqn:Ex; auto. apply existsb_exists in Ex. destruct Ex as (x & Hx & Ex).
    rewrite Forall_forall in HP'. specialize (HP' x Hx). lia. }
  pose proof (compare_generic (g_shape g) (g_per g) idx d HP Hp HL) as H.
  rewrite E in *. rewrite Hex. rewrite HL, Nat.eqb_refl. cbn [negb].
  destruct (shift_loop _ _ _ _); [left|right]; auto. destruct H; auto.
Qed.

(** Rank 1. *)
Lemma get_compare_1 : forall g idx d0 n, g_shape g = [n] -> n < big -> 0 <= idx < n ->
  - big < d0 < big -> (g_per g = true -> - n <= d0) -> compare_spec g idx [d0].
Proof.
  intros g idx d0 n E Hn Hi Hd Hg. unfold compare_spec, get_compare. rewrite E.
  replace (n =? 0) with false by lia. unfold pixel. rewrite zprod1.
  destruct (g_per g) eqn:P.
  - left. pose proof (wrap_range n idx d0 ltac:(lia)).
    rewrite s64_small with (n := n) by lia. split; auto.
    rewrite !coords1. cbn [moved]. split; auto. apply wrap_right; lia.
  - rewrite s64_id by (unfold two63, big in *; lia).
    destruct ((idx + d0 <? 0) || (n <=? idx + d0)) eqn:Ec.
    + right. split; auto. split; auto. intros q Hq. rewrite !coords1. cbn [moved]. lia.
    + left. split; [lia|]. rewrite !coords1. cbn [moved]. auto.
Qed.

(** Rank 2, more than one row and column. *)
Lemma get_compare_2 : forall g idx d0 d1 n0 n1, g_shape g = [n0; n1] ->
  1 < n0 -> 1 < n1 -> n0 * n1 < big -> 0 <= idx < n0 * n1 ->
  - big < d0 < big -> - big < d1 < big ->
  (g_per g = true -> - n0 <= d0 /\ - n1 <= d1) -> compare_spec g idx [d0; d1].
Proof.
  intros g idx d0 d1 n0 n1 E H0 H1 Hb Hi Hd0 Hd1 Hg. unfold compare_spec, get_compare. rewrite E.
  assert (Hn0 : n0 < big) by nia. assert (Hn1 : n1 < big) by nia.
  replace (n0 =? 0) with false by lia. replace (n1 =? 0) with false by lia. cbn [orb].
  replace (n0 =? 1) with false by lia. replace (n1 =? 1) with false by lia.
  unfold pixel. rewrite zprod2.
  pose proof (Z.mod_pos_bound idx n1 ltac:(lia)) as Hm.
  assert (Hq : 0 <= idx / n1 < n0).
  { split; [apply Z.div_pos; lia|]. apply Z.div_lt_upper_bound; nia. }
  assert (Hdiv : forall a b, 0 <= b < n1 -> (a * n1 + b) / n1 = a /\ (a * n1 + b) mod n1 = b).
  { intros a b Hb'. split.
    - rewrite Z.div_add_l by lia. rewrite Z.div_small by lia. lia.
    - rewrite Z.add_comm, Z.mod_add by lia. apply Z.mod_small; lia. }
  destruct (g_per g) eqn:P.
  - left. destruct (Hg eq_refl) as [G0 G1].
    pose proof (wrap_range n0 (idx / n1) d0 ltac:(lia)) as W0.
    pose proof (wrap_range n1 (idx mod n1) d1 ltac:(lia)) as W1.
    rewrite (s64_small _ n0) by lia. rewrite (s64_small _ n1) by lia.
    split; [nia|]. rewrite !coords2. destruct (Hdiv (wrap_unsigned n0 (idx / n1) d0) _ W1) as [-> ->].
    cbn [moved]. split; [|split]; auto; apply wrap_right; lia.
  - rewrite !s64_id by (unfold two63, big in *; lia).
    destruct ((idx / n1 + d0 <? 0) || (n0 <=? idx / n1 + d0) || (idx mod n1 + d1 <? 0) || (n1 <=? idx mod n1 + d1)) eqn:Ec.
    + right. split; auto. split; auto. intros q Hq'. rewrite !coords2. cbn [moved].
      pose proof (Z.mod_pos_bound q n1 ltac:(lia)) as Hm'.
      assert (Hqq : 0 <= q / n1 < n0).
      { split; [apply Z.div_pos; lia|]. apply Z.div_lt_upper_bound; nia. }
      intros (A & B & _). lia.
    + left. assert (B : 0 <= idx mod n1 + d1 < n1) by lia. assert (A : 0 <= idx / n1 + d0 < n0) by lia.
      split; [nia|].
      rewrite !coords2. destruct (Hdiv (idx / n1 + d0) _ B) as [-> ->]. cbn [moved]. auto.
Qed.

(** Rank 2, one row, periodic. *)
Lemma get_compare_1n_per : forall g idx d0 d1 n1, g_shape g = [1; n1] -> g_per g = true ->
  0 <= idx < n1 -> n1 < big -> - big < d1 < big -> - n1 <= d1 -> compare_spec g idx [d0; d1].
Proof.
  intros g idx d0 d1 n1 E P Hi Hn Hd Hg. unfold compare_spec, get_compare. rewrite E, P.
  replace (n1 =? 0) with false by lia. cbn [orb Z.eqb Pos.eqb].
  left. pose proof (wrap_range n1 idx d1 ltac:(lia)) as W.
  rewrite (s64_small _ n1) by lia. rewrite zprod2. split; [lia|].
  rewrite !coords2. rewrite !(Z.mod_small _ n1), !(Z.div_small _ n1) by lia.
  cbn [moved]. rewrite Z.mod_1_r. split; [|split]; auto. apply wrap_right; lia.
Qed.

(** Rank 2, one column (and more than one row), periodic. *)
Lemma get_compare_n1_per : forall g idx d0 d1 n0, g_shape g = [n0; 1] -> g_per g = true ->
  n0 <> 1 -> 0 <= idx < n0 -> n0 < big -> - big < d0 < big -> - n0 <= d0 ->
  compare_spec g idx [d0; d1].
Proof.
  intros g idx d0 d1 n0 E P H1 Hi Hn Hd Hg. unfold compare_spec, get_compare. rewrite E, P.
  replace (n0 =? 0) with false by lia. replace (n0 =? 1) with false by lia. cbn [orb Z.eqb Pos.eqb].
  left. pose proof (wrap_range n0 idx d0 ltac:(lia)) as W.
  rewrite (s64_small _ n0) by lia. rewrite zprod2. split; [lia|].
  rewrite !coords2. rewrite !Z.div_1_r, !Z.mod_1_r.
  cbn [moved]. rewrite Z.mod_1_r. split; [|split]; auto. apply wrap_right; lia.
Qed.

Lemma zprod_big : forall g, wf g -> zprod (g_shape g) < big.
Proof. unfold wf; intros; tauto. Qed.

(** Every neighbour lookup of a well-formed labeller stays inside the image. *)
Lemma wf_nb_ok : forall g, wf g -> nb_ok g.
Proof.
  intros g (Hne & HP & HB & HD) idx d Hi Hd. destruct (HD d Hd) as [HL HF].
  destruct (g_shape g) as [|n0 [|n1 [|n2 t]]] eqn:E.
  - congruence.
  - destruct (len1 d HL) as (d0 & ->). rewrite zprod1 in *.
    unfold get_compare. rewrite E. replace (n0 =? 0) with false by lia.
    destruct (g_per g) eqn:P.
    + eexists; split; [reflexivity|]. right. pose proof (wrap_range n0 idx d0 ltac:(lia)).
      rewrite (s64_small _ n0); lia.
    + destruct ((s64 (idx + d0) <? 0) || (n0 <=? s64 (idx + d0))) eqn:Ec;
      eexists; (split; [reflexivity|]); [left; auto|right; lia].
  - destruct (len2 d HL) as (d0 & d1 & ->). rewrite zprod2 in *.
    unfold get_compare. rewrite E.
    apply Forall_inv in HP as Hn0. apply Forall_inv_tail, Forall_inv in HP as Hn1.
    replace (n0 =? 0) with false by nia. replace (n1 =? 0) with false by nia. cbn [orb].
    assert (0 < n0) by nia. assert (0 < n1) by nia.
    assert (n0 < big) by nia. assert (n1 < big) by nia.
    destruct (n0 =? 1) eqn:E0; [|destruct (n1 =? 1) eqn:E1]; destruct (g_per g) eqn:P.
    + eexists; split; [reflexivity|]. right. pose proof (wrap_range n1 idx d1 ltac:(nia)).
      rewrite (s64_small _ n1); nia.
    + destruct (_ || _) eqn:Ec; eexists; (split; [reflexivity|]); [left; auto|right; nia].
    + eexists; split; [reflexivity|]. right. pose proof (wrap_range n0 idx d0 ltac:(nia)).
      rewrite (s64_small _ n0); nia.
    + destruct (_ || _) eqn:Ec; eexists; (split; [reflexivity|]); [left; auto|right; nia].
    + eexists; split; [reflexivity|]. right.
      pose proof (wrap_range n0 (idx / n1) d0 ltac:(nia)).
      pose proof (wrap_range n1 (idx mod n1) d1 ltac:(nia)).
      rewrite (s64_small _ n0), (s64_small _ n1); nia.
    + match goal with |- context [if ?b then _ else _] => destruct b eqn:Ec end;
      eexists; (split; [reflexivity|]); [left; auto|right].
      generalize dependent (s64 (idx / n1 + d0)). generalize dependent (s64 (idx mod n1 + d1)).
      intros a b Ec. assert (0 <= b < n0 /\ 0 <= a < n1) by lia. nia.
  - rewrite <- E in *.
    pose proof (get_compare_3 g idx d n0 n1 n2 t E HP Hi ltac:(congruence)) as H.
    unfold compare_spec in H. destruct (get_compare g idx d); try tauto.
    exists a. split; auto. tauto.
Qed.

Lemma nb_In : forall g p q, nb_ok g -> 0 <= p < zprod (g_shape g) -> 0 <= q ->
  (In q (nb g p) <-> exists d, In d (g_dx g) /\ get_compare g p d = Ok q).
Proof.
  intros g p q Hok Hp Hq. unfold nb. rewrite in_flat_map. split.
  - intros (d & Hd & H). destruct (Hok p d Hp Hd) as (c & E & _). exists d. split; auto.
    rewrite E in *. destruct (_ && _); simpl in H; [tauto|]. destruct H as [->|[]]. auto.
  - intros (d & Hd & E). exists d. split; auto. rewrite E.
    replace (q =? -1) with false by lia. rewrite andb_false_r. simpl; auto.
Qed.

(** From the lookup specification to the neighbour relation. *)
Lemma nb_spec_of : forall g p q, wf g -> pixel (g_shape g) p -> pixel (g_shape g) q ->
  (forall d, In d (g_dx g) -> compare_spec g p d) ->
  (In q (nb g p) <-> neighbour (g_per g) (g_shape g) (g_dx g) p q).
Proof.
  intros g p q Hwf Hp Hq HC. rewrite nb_In; auto using wf_nb_ok; [|apply Hq].
  assert (HP : Forall (fun n => 0 < n) (g_shape g)).
  { destruct Hwf as (_ & HP & _). apply zprod_pos_inv; auto. unfold pixel in Hp; lia. }
  unfold neighbour. split.
  - intros (d & Hd & E). split; auto. split; auto. exists d. split; auto.
    specialize (HC d Hd). unfold compare_spec in HC. rewrite E in HC.
    destruct HC as [[_ H]|(_ & H & _)]; auto. unfold pixel in Hq; lia.
  - intros (_ & _ & d & Hd & Hm). exists d. split; auto.
    specialize (HC d Hd). unfold compare_spec in HC. destruct (get_compare g p d); try tauto.
    f_equal. destruct HC as [[H1 H2]|(_ & _ & H)]; [|exfalso; apply (H q); auto].
    apply (coords_inj (g_shape g)); auto. eapply moved_functional; eauto.
Qed.

(** The main result: within range, [label_impl] looks exactly at the neighbours. *)
Lemma nb_spec : forall g p q, wf g -> in_range g -> pixel (g_shape g) p -> pixel (g_shape g) q ->
  p <> q -> (In q (nb g p) <-> neighbour (g_per g) (g_shape g) (g_dx g) p q).
Proof.
  intros g p q Hwf Hr Hp Hq Hpq. pose proof Hwf as (Hne & HP & HB & HD).
  destruct (g_shape g) as [|n0 [|n1 [|n2 t]]] eqn:E.
  - congruence.
  - rewrite <- E in *. apply nb_spec_of; auto. intros d Hd. destruct (HD d Hd) as [HL HF].
    rewrite E in HL. destruct (len1 d HL) as (d0 & ->). apply Forall_inv in HF.
    unfold in_range, offsets_in_range in Hr. unfold pixel in Hp. rewrite E in *. rewrite zprod1 in *.
    apply get_compare_1 with (n := n0); auto.
  - unfold in_range, offsets_in_range in Hr. rewrite E in Hr.
    apply Forall_inv in HP as Hn0. apply Forall_inv_tail, Forall_inv in HP as Hn1.
    unfold pixel in Hp, Hq. rewrite zprod2 in Hp, Hq, HB.
    assert (0 < n0) by nia. assert (0 < n1) by nia.
    assert (n0 < big) by nia. assert (n1 < big) by nia.
    assert (HD' : forall d, In d (g_dx g) -> exists d0 d1, d = [d0; d1] /\ - big < d0 < big /\ - big < d1 < big).
    { intros d Hd. destruct (HD d Hd) as [HL HF]. destruct (len2 d HL) as (d0 & d1 & ->).
      exists d0, d1. split; auto. split; [apply (Forall_inv HF)|apply (Forall_inv (Forall_inv_tail HF))]. }
    destruct (Z.eq_dec n0 1) as [->|N0]; [|destruct (Z.eq_dec n1 1) as [->|N1]].
    + destruct (g_per g) eqn:P.
      * rewrite <- E, <- P. apply nb_spec_of; auto; unfold pixel; rewrite ?E, ?zprod2; auto.
        intros d Hd. destruct (HD' d Hd) as (d0 & d1 & -> & B0 & B1).
        destruct (Hr d0 d1 Hd). apply get_compare_1n_per with (n1 := n1); auto; lia.
      * rewrite nb_In; auto using wf_nb_ok; [|rewrite E, zprod2; lia|lia].
        unfold neighbour, pixel. rewrite !coords2, zprod2.
        rewrite !(Z.mod_small _ n1), !(Z.div_small _ n1) by lia.
        assert (G : forall d0 d1, In [d0; d1] (g_dx g) -> get_compare g p [d0; d1] =
           Ok (if (p + d1 <? 0) || (n1 <=? p + d1) then -1 else p + d1)).
        { intros d0 d1 Hd. destruct (HD' _ Hd) as (x0 & x1 & Ex & B0 & B1). injection Ex as <- <-.
          unfold get_compare. rewrite E, P. replace (n1 =? 0) with false by nia.
          cbn [orb Z.eqb Pos.eqb]. rewrite s64_id by (unfold two63, big in *; nia).
          destruct (_ || _); auto. }
        split.
        -- intros (d & Hd & Ed). destruct (HD' _ Hd) as (d0 & d1 & -> & B0 & B1).
           rewrite G in Ed by auto. injection Ed as Ed.
           assert (q = p + d1) by (destruct (_ || _) in Ed; lia).
           split; [lia|]. split; [lia|]. destruct (Hr d0 d1 Hd) as [R _].
           destruct (R eq_refl) as [->|[->|R']]; [exists [0; d1]| lia | exists [0; d1]];
           (split; auto); cbn [moved]; lia.
        -- intros (_ & _ & d & Hd & Hm). exists d. split; auto.
           destruct (HD' _ Hd) as (d0 & d1 & -> & B0 & B1). rewrite G by auto.
           cbn [moved] in Hm. f_equal. destruct (_ || _) eqn:Ec; lia.
    + destruct (g_per g) eqn:P.
      * rewrite <- E, <- P. apply nb_spec_of; auto; unfold pixel; rewrite ?E, ?zprod2; auto.
        intros d Hd. destruct (HD' d Hd) as (d0 & d1 & -> & B0 & B1).
        destruct (Hr d0 d1 Hd). apply get_compare_n1_per with (n0 := n0); auto; lia.
      * rewrite nb_In; auto using wf_nb_ok; [|rewrite E, zprod2; lia|lia].
        unfold neighbour, pixel. rewrite !coords2, zprod2.
        rewrite !Z.mod_1_r, !Z.div_1_r.
        assert (G : forall d0 d1, In [d0; d1] (g_dx g) -> get_compare g p [d0; d1] =
           Ok (if (p + d0 <? 0) || (n0 <=? p + d0) then -1 else p + d0)).
        { intros d0 d1 Hd. destruct (HD' _ Hd) as (x0 & x1 & Ex & B0 & B1). injection Ex as <- <-.
          unfold get_compare. rewrite E, P. replace (n0 =? 0) with false by nia.
          replace (n0 =? 1) with false by lia.
          cbn [orb Z.eqb Pos.eqb]. rewrite s64_id by (unfold two63, big in *; nia).
          destruct (_ || _); auto. }
        split.
        -- intros (d & Hd & Ed). destruct (HD' _ Hd) as (d0 & d1 & -> & B0 & B1).
           rewrite G in Ed by auto. injection Ed as Ed.
           assert (q = p + d0) by (destruct (_ || _) in Ed; lia).
           split; [lia|]. split; [lia|]. destruct (Hr d0 d1 Hd) as [_ R].
           destruct (R N0 eq_refl) as [->|[->|R']]; [exists [d0; 0]| lia | exists [d0; 0]];
           (split; auto); cbn [moved]; lia.
        -- intros (_ & _ & d & Hd & Hm). exists d. split; auto.
           destruct (HD' _ Hd) as (d0 & d1 & -> & B0 & B1). rewrite G by auto.
           cbn [moved] in Hm. f_equal. destruct (_ || _) eqn:Ec; lia.
    + rewrite <- E. apply nb_spec_of; auto; unfold pixel; rewrite ?E, ?zprod2; auto.
      intros d Hd. destruct (HD' d Hd) as (d0 & d1 & -> & B0 & B1).
      apply get_compare_2 with (n0 := n0) (n1 := n1); auto; try nia.
      intros P. rewrite P in Hr. destruct (Hr d0 d1 Hd). lia.
  - rewrite <- E in *. apply nb_spec_of; auto. intros d Hd. destruct (HD d Hd) as [HL HF].
    eapply get_compare_3; eauto.
Qed.
