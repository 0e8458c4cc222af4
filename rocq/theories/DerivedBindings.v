(** * DerivedBindings: proofs about the Python bindings outside [Ensemble] *)

From Coq Require Import ZArith QArith Qcanon List Bool String Lia Permutation.
From Verif Require Import Base Cluster SpecCluster ClusterTop Labels Dilate Ensemble EnsemblePy SpecPy DerivedPy BindingsPy SpecBindings.
Import ListNotations.
Open Scope Z_scope.

(** ** Casts *)

Lemma map_trunc_zq : forall l, map trunc (map zq l) = l.
Proof. intros l. rewrite map_map. rewrite <- (map_id l) at 2. apply map_ext. intros z. apply trunc_zq. Qed.

Lemma integers_cast : forall lo hi range a i, integers lo hi a i -> (forall z, lo <= z < hi -> range z = true) -> to_signed range a = Ok i.
Proof.
  intros lo hi range [t s v] [s' v'] (E & V & F) R. cbn [i_shape a_shape a_vals i_vals] in *. subst s' v. unfold to_signed. cbn [a_vals a_shape].
  replace (forallb _ _) with true; [rewrite map_trunc_zq; reflexivity|]. symmetry. apply forallb_forall. intros q Hq. apply in_map_iff in Hq.
  destruct Hq as (z & <- & Hz). rewrite trunc_zq. apply R. rewrite Forall_forall in F. auto.
Qed.

Lemma integers_int : forall a i, integers (- 2 ^ 31) (2 ^ 31) a i -> to_int a = Ok i.
Proof.
  intros a i H. eapply integers_cast; eauto. intros z Hz. unfold int_range. apply andb_true_intro. split; [apply Z.leb_le|apply Z.ltb_lt]; lia.
Qed.

Lemma integers_long : forall a i, integers (- 2 ^ 63) (2 ^ 63) a i -> to_long a = Ok i.
Proof.
  intros a i H. eapply integers_cast; eauto. intros z Hz. unfold long_range, two63. apply andb_true_intro. split; [apply Z.leb_le|apply Z.ltb_lt]; lia.
Qed.

Lemma counts_size : forall a l, counts a l -> to_size a = Ok l /\ lenZ (a_shape a) = 1.
Proof.
  intros a l ((n & S) & V & F). rewrite S. split; [|reflexivity]. unfold to_size. rewrite V, map_trunc_zq.
  assert (E : forallb (fun z => (0 <=? z) && (z <? two64)) l = true).
  { apply forallb_forall. intros z Hz. rewrite Forall_forall in F. specialize (F z Hz). apply andb_true_intro.
    split; [apply Z.leb_le|apply Z.ltb_lt; unfold two64]; lia. }
  rewrite E, andb_false_r. f_equal. rewrite <- (map_id l) at 2. apply map_ext_in. intros z Hz. rewrite Forall_forall in F. specialize (F z Hz).
  unfold u64, two64. apply Z.mod_small. lia.
Qed.

(** ** Names in any order *)

Lemma named_perm : forall n kw kw', Permutation kw kw' -> NoDup (map fst kw) -> named n kw = named n kw'.
Proof.
  intros n kw kw' P. induction P; intros N; auto.
  - unfold named. cbn [find]. destruct (String.eqb (fst x) n); auto. cbn [map] in N. inversion N; subst. specialize (IHP H2).
    unfold named in IHP. exact IHP.
  - unfold named. cbn [find]. destruct (String.eqb_spec (fst x) n), (String.eqb_spec (fst y) n); auto.
    exfalso. cbn [map] in N. inversion N; subst. apply H1. left. congruence.
  - rewrite IHP1; auto. apply IHP2. eapply Permutation_NoDup; [|exact N]. apply Permutation_map. exact P1.
Qed.

Lemma filter_perm : forall {A} (f : A -> bool) l l', Permutation l l' -> Permutation (filter f l) (filter f l').
Proof.
  intros A f l l' P. induction P; cbn [filter]; auto.
  - destruct (f x); auto.
  - destruct (f x), (f y); auto. apply perm_swap.
  - etransitivity; eauto.
Qed.

Lemma filter_nodup : forall (f : string * pyarg -> bool) l, NoDup (map fst l) -> NoDup (map fst (filter f l)).
Proof.
  intros f l. induction l as [|x l IH]; intros N; cbn [filter map]; auto. cbn [map] in N. inversion N; subst.
  destruct (f x); auto. cbn [map]. constructor; auto. intros H. apply H1. apply in_map_iff in H. destruct H as (y & <- & Hy).
  apply filter_In in Hy. apply in_map. tauto.
Qed.

Lemma match_perm : forall ps pos kw kw', Permutation kw kw' -> NoDup (map fst kw) -> match_args ps pos kw = match_args ps pos kw'.
Proof.
  induction ps as [|p ps IH]; intros pos kw kw' P N; cbn [match_args].
  - destruct pos; auto. destruct kw as [|x kw], kw' as [|y kw']; auto.
    + apply Permutation_nil in P. discriminate.
    + symmetry in P. apply Permutation_nil in P. discriminate.
  - destruct pos as [|x pos].
    + rewrite (named_perm _ _ _ P N). destruct (match named (p_name p) kw' with Some x => Some x | None => p_default p end); auto.
      rewrite (IH [] _ (filter (fun k => negb (String.eqb (fst k) (p_name p))) kw')); auto; [apply filter_perm; auto|apply filter_nodup; auto].
    + rewrite (IH pos kw kw'); auto.
Qed.

Lemma first_ext : forall {A B} (f g : A -> option B) l, (forall x, f x = g x) -> first_some f l = first_some g l.
Proof. intros A B f g l H. induction l as [|x l IH]; cbn [first_some]; auto. rewrite H, IH. reflexivity. Qed.

Lemma call_perm : forall {A} (os : list (list parameter * (list value -> res A))) pos kw kw', Permutation kw kw' -> NoDup (map fst kw) ->
  call_overloads os pos kw = call_overloads os pos kw'.
Proof.
  intros A os pos kw kw' P N. unfold call_overloads.
  assert (E : forall c, first_some (try_overload c pos kw) os = first_some (try_overload c pos kw') os).
  { intros c. apply first_ext. intros o. unfold try_overload. rewrite (match_perm _ _ _ _ P N). reflexivity. }
  rewrite !E. reflexivity.
Qed.

(** ** [dilate] *)

Lemma b2z_range : forall n, 0 <= n < 2 ^ 64 -> (0 <=? n) && (n <? two64) = true.
Proof. intros n H. unfold two64. apply andb_true_intro. split; [apply Z.leb_le|apply Z.ltb_lt]; lia. Qed.

Definition is_int32 (t : dtype) : bool := match t with Int32 => true | _ => false end.
Definition is_uint64 (t : dtype) : bool := match t with UInt64 => true | _ => false end.

Lemma named_canonical : forall asrt r, valid_request r ->
  answers asrt r (py_dilate asrt [PyArr (r_image r)] (keywords r)) /\
  answers asrt r (py_dilate asrt [] (("f"%string, PyArr (r_image r)) :: keywords r)).
Proof.
  intros asrt [f k it per] (_ & HK & HT). cbn [r_image r_kernel r_iterations] in *.
  unfold answers. cbn [r_image r_kernel r_iterations r_periodic].
  unfold py_dilate, call_overloads, dilate_overloads, keywords. cbn [r_kernel r_iterations r_periodic].
  split; intros i HI; apply integers_int in HI;
  (destruct k as [k|]; [destruct HK as [k0 HK]|]); (destruct it as [[n|a]|]; [|destruct HT as [l0 HT]|]); destruct per as [per|]; cbn [valid_iterations] in HT;
  cbn -[to_int to_size Z.eqb Z.leb Z.ltb dilate dilate_n dilate_default dilate_default_n two64 Z.pow];
  fold (is_int32 (a_dtype f)); try fold (is_int32 (a_dtype k)); try fold (is_uint64 (a_dtype a));
  intros; 
  repeat match goal with
  | H : counts _ _ |- _ => apply counts_size in H; destruct H
  | H : integers _ _ _ _ |- _ => apply integers_int in H
  end;
  repeat match goal with
  | H : to_int _ = Ok _ |- _ => rewrite !H; clear H
  | H : to_size _ = Ok _ |- _ => rewrite !H; clear H
  | H : lenZ _ = 1 |- _ => rewrite !H; clear H
  end;
  try rewrite !(b2z_range _ HT);
  destruct (is_int32 (a_dtype f)); try destruct (is_int32 (a_dtype k)); try destruct (is_uint64 (a_dtype a)); try reflexivity.
Qed.

Lemma keywords_nodup : forall r, NoDup (map fst (keywords r)) /\ NoDup (map fst (("f"%string, PyArr (r_image r)) :: keywords r)).
Proof.
  intros [f k it per]. unfold keywords. cbn [r_kernel r_iterations r_periodic r_image].
  split; destruct k, it, per; cbn [keyword app map fst];
    repeat (constructor; [cbn [In]; intros H; repeat (destruct H as [H|H]; [discriminate|]); exact H|]); constructor.
Qed.

Lemma dilate_by_name : forall asrt r kw, valid_request r ->
  (Permutation kw (keywords r) -> answers asrt r (py_dilate asrt [PyArr (r_image r)] kw)) /\
  (Permutation kw (("f"%string, PyArr (r_image r)) :: keywords r) -> answers asrt r (py_dilate asrt [] kw)).
Proof.
  intros asrt r kw V. destruct (named_canonical asrt r V) as [A B]. destruct (keywords_nodup r) as [N1 N2].
  split; intros P; symmetry in P; unfold py_dilate in *; [rewrite <- (call_perm _ _ _ _ P N1)|rewrite <- (call_perm _ _ _ _ P N2)]; auto.
Qed.

Lemma dilate_native : forall asrt r, valid_request r -> in_order r -> native r -> answers asrt r (py_dilate asrt (positionals r) []).
Proof.
  intros asrt [f k it per] (_ & HK & HT) HO (NF & NK & NT). unfold in_order in HO. cbn [r_image r_kernel r_iterations r_periodic] in *.
  unfold answers, positionals. cbn [r_image r_kernel r_iterations r_periodic].
  unfold py_dilate, call_overloads, dilate_overloads.
  intros i HI; apply integers_int in HI;
  (destruct k as [k|]; [destruct HK as [k0 HK]|]); (destruct it as [[n|a]|]; [|destruct HT as [l0 HT]|rewrite (HO eq_refl)]); try destruct per as [per|]; cbn [valid_iterations] in HT;
  cbn -[to_int to_size Z.eqb Z.leb Z.ltb dilate dilate_n dilate_default dilate_default_n two64 Z.pow];
  rewrite ?NF, ?NK, ?NT; intros;
  repeat match goal with
  | H : counts _ _ |- _ => apply counts_size in H; destruct H
  | H : integers _ _ _ _ |- _ => apply integers_int in H
  end;
  repeat match goal with
  | H : to_int _ = Ok _ |- _ => rewrite !H; clear H
  | H : to_size _ = Ok _ |- _ => rewrite !H; clear H
  | H : lenZ _ = 1 |- _ => rewrite !H; clear H
  end;
  try rewrite !(b2z_range _ HT); try reflexivity.
Qed.

(** A list that is given by position, without a list of iterations behind it: a kernel of a
    one-dimensional image is taken for the numbers of iterations, unless both are [int32]. *)
Lemma kernel_as_iterations : forall asrt f k i l, integers (- 2 ^ 31) (2 ^ 31) f i -> counts k l ->
  ~ (a_dtype f = Int32 /\ a_dtype k = Int32) ->
  py_dilate asrt [PyArr f; PyArr k] [] = dilate_default asrt (i_shape i) (i_vals i) l true.
Proof.
  intros asrt f k i l HI HK N. apply integers_int in HI. apply counts_size in HK. destruct HK as [K1 K2].
  unfold py_dilate, call_overloads, dilate_overloads.
  cbn -[to_int to_size Z.eqb Z.leb Z.ltb dilate dilate_n dilate_default dilate_default_n two64 Z.pow].
  rewrite HI, K1, K2. destruct (a_dtype f) eqn:EF; try reflexivity. destruct (a_dtype k) eqn:EK; try reflexivity. exfalso. auto.
Qed.

(** A number that is given by position is taken for a kernel, unless the image is [int32]. *)
Lemma number_as_kernel : forall asrt f n i, integers (- 2 ^ 31) (2 ^ 31) f i -> 0 <= n < 2 ^ 31 ->
  py_dilate asrt [PyArr f; PyNum n] [] =
    if is_int32 (a_dtype f) then dilate_default_n asrt (i_shape i) (i_vals i) n true
    else dilate_n asrt (i_shape i) (i_vals i) [] [n] 1 true.
Proof.
  intros asrt f n i HI HN. apply integers_int in HI.
  assert (E1 : int_range n = true). { unfold int_range. apply andb_true_intro. split; [apply Z.leb_le|apply Z.ltb_lt]; lia. }
  unfold py_dilate, call_overloads, dilate_overloads.
  cbn -[to_int to_size Z.eqb Z.leb Z.ltb dilate dilate_n dilate_default dilate_default_n two64 Z.pow int_range].
  rewrite HI, E1, (b2z_range n) by lia. destruct (a_dtype f); reflexivity.
Qed.

(** With assertions that is an error. *)
Lemma number_rejected : forall f n i, integers (- 2 ^ 31) (2 ^ 31) f i -> 0 <= n < 2 ^ 31 -> a_dtype f <> Int32 ->
  i_shape i <> [] -> i_vals i <> [] -> py_dilate true [PyArr f; PyNum n] [] = Throw.
Proof.
  intros f n i HI HN HD HS HV. rewrite (number_as_kernel true f n i HI HN).
  replace (is_int32 (a_dtype f)) with false by (destruct (a_dtype f); try reflexivity; contradiction).
  unfold dilate_n. destruct (i_vals i) as [|v l]; [contradiction|]. cbn [Array3.amax bind]. destruct (i_shape i) as [|x s]; [contradiction|].
  unfold dilate, assertb. cbn [orb negb]. destruct (Nat.leb (List.length (x :: s)) 3); reflexivity.
Qed.

(** ** The other functions *)

Lemma labels_as_passed : forall asrt a i, integers (- 2 ^ 63) (2 ^ 63) a i ->
  (forall per, py_clusters asrt a per = clusters asrt (i_shape i) (i_vals i) per) /\
  py_labels_prune asrt a = labels_prune asrt (i_vals i) /\
  py_labels_sizes a = Ok (labels_sizes (i_vals i)) /\
  forall b j, integers (- 2 ^ 63) (2 ^ 63) b j ->
    py_labels_map a b = labels_map (i_vals i) (i_vals j) /\
    (forall n, a_shape b = [n] -> py_labels_reorder asrt a b = labels_reorder asrt (i_vals i) (i_vals j) /\
                                  py_labels_sizes_names a b = Ok (labels_sizes_names (i_vals i) (i_vals j))) /\
    (forall n m, a_shape b = [n; m] -> py_labels_rename asrt a b = labels_rename asrt (i_vals i) n m (i_vals j)).
Proof.
  intros asrt a i HI. pose proof (integers_long _ _ HI) as L.
  split. { intros per. unfold py_clusters. rewrite L. reflexivity. }
  split. { unfold py_labels_prune. rewrite L. reflexivity. }
  split. { unfold py_labels_sizes. rewrite L. reflexivity. }
  intros b j HJ. pose proof (integers_long _ _ HJ) as M.
  split. { unfold py_labels_map. rewrite L, M. reflexivity. }
  split.
  - intros n S. unfold py_labels_reorder, py_labels_sizes_names, with_rank. rewrite S. cbn [lenZ List.length Z.of_nat Pos.of_succ_nat Pos.succ Z.eqb Pos.eqb].
    rewrite L, M. split; reflexivity.
  - intros n m S. unfold py_labels_rename, with_rank. destruct HJ as (SJ & _). rewrite S. unfold lenZ. cbn [List.length Z.of_nat Pos.of_succ_nat Pos.succ Z.eqb Pos.eqb].
    rewrite L, M. cbn [bind]. rewrite SJ, S. reflexivity.
Qed.

(** ** Clusters of any array *)

Lemma zq_le : forall a b, (zq a <= zq b)%Qc <-> a <= b.
Proof. intros a b. unfold Qcle. rewrite !this_zq. unfold Qle. cbn [Qnum Qden]. lia. Qed.
Lemma zq_lt : forall a b, (zq a < zq b)%Qc <-> a < b.
Proof. intros a b. unfold Qclt. rewrite !this_zq. unfold Qlt. cbn [Qnum Qden]. lia. Qed.

Lemma Qcle_total : forall x y : Qc, (x <= y)%Qc \/ (y <= x)%Qc.
Proof. intros x y. destruct (Qclt_le_dec x y) as [H|H]; [left; apply Qclt_le_weak; auto|right; auto]. Qed.

Lemma trunc_between : forall lo hi q, lo <= 0 < hi -> (zq lo <= q)%Qc -> (q < zq hi)%Qc -> lo <= trunc q < hi.
Proof.
  intros lo hi q H A B. destruct (trunc_toward_zero q) as [P N].
  destruct (Qcle_total 0 q) as [D|D].
  - destruct (P D) as [P1 P2]. split.
    + destruct (Z_lt_le_dec (trunc q) 0) as [L|L]; [|lia]. exfalso.
      assert (zq 0 < zq (trunc q + 1))%Qc by (eapply Qcle_lt_trans; [exact D|exact P2]). apply (proj1 (zq_lt _ _)) in H0; lia.
    + apply zq_lt. eapply Qcle_lt_trans; eauto.
  - destruct (N D) as [P1 P2]. split.
    + apply zq_le. eapply Qcle_trans; eauto.
    + destruct (Z_lt_le_dec 0 (trunc q)) as [L|L]; [|lia]. exfalso.
      assert (zq (trunc q - 1) < zq 0)%Qc by (eapply Qclt_le_trans; [exact P2|exact D]). apply (proj1 (zq_lt _ _)) in H0; lia.
Qed.

Lemma trunc_zero : forall q, trunc q = 0 <-> (zq (-1) < q)%Qc /\ (q < zq 1)%Qc.
Proof.
  intros q. destruct (trunc_toward_zero q) as [P N]. split.
  - intros E. rewrite E in *. destruct (Qcle_total 0 q) as [D|D].
    + destruct (P D) as [P1 P2]. split; auto. eapply Qclt_le_trans; [|exact D]. change 0%Qc with (zq 0). apply zq_lt. lia.
    + destruct (N D) as [P1 P2]. split; auto. eapply Qcle_lt_trans; [exact D|]. change 0%Qc with (zq 0). apply zq_lt. lia.
  - intros [A B]. destruct (Qcle_total 0 q) as [D|D].
    + destruct (P D) as [P1 P2].
      assert (zq (trunc q) < zq 1)%Qc by (eapply Qcle_lt_trans; eauto). apply (proj1 (zq_lt _ _)) in H.
      assert (zq 0 < zq (trunc q + 1))%Qc by (eapply Qcle_lt_trans; [exact D|exact P2]). apply (proj1 (zq_lt _ _)) in H0; lia.
    + destruct (N D) as [P1 P2].
      assert (zq (-1) < zq (trunc q))%Qc by (eapply Qclt_le_trans; eauto). apply (proj1 (zq_lt _ _)) in H.
      assert (zq (trunc q - 1) < zq 0)%Qc by (eapply Qclt_le_trans; [exact P2|exact D]). apply (proj1 (zq_lt _ _)) in H0; lia.
Qed.

Lemma cast_between : forall (range : Z -> bool) lo hi a, lo <= 0 < hi -> (forall z, lo <= z < hi -> range z = true) -> between lo hi a ->
  to_signed range a = Ok (mkimg (a_shape a) (map trunc (a_vals a))).
Proof.
  intros range lo hi a H R B. unfold to_signed. replace (forallb _ _) with true; auto. symmetry. apply forallb_forall. intros q Hq.
  unfold between in B. rewrite Forall_forall in B. destruct (B q Hq). apply R. apply trunc_between; auto.
Qed.

Lemma zn_trunc : forall l p, zn (map trunc l) p = trunc (nth (Z.to_nat p) l 0%Qc).
Proof. intros l p. unfold zn. change 0 with (trunc 0%Qc) at 1. apply map_nth. Qed.

Lemma linked_ext : forall adj (A B : Z -> Prop) p q, (forall x, A x <-> B x) -> linked adj A p q <-> linked adj B p q.
Proof.
  intros adj A B p q H. split; induction 1; try (apply linked_refl; apply H; auto); eapply linked_step; eauto; apply H; auto.
Qed.

Lemma py_clusters_any : forall asrt a per, good_shape (a_shape a) -> (List.length (a_shape a) <= 3)%nat -> complete a ->
  between (- 2 ^ 63) (2 ^ 63) a ->
  exists lab, py_clusters asrt a per = Ok lab /\ lenZ lab = zprod (a_shape a) /\
    (forall p, pixel (a_shape a) p -> (zn lab p = 0 <-> (zq (-1) < value_at a p)%Qc /\ (value_at a p < zq 1)%Qc)) /\
    (forall p q, pixel (a_shape a) p -> pixel (a_shape a) q -> zn lab p <> 0 -> zn lab q <> 0 ->
       (zn lab p = zn lab q <-> linked (face_neighbour per (a_shape a)) (fun x => pixel (a_shape a) x /\ zn lab x <> 0) p q)).
Proof.
  intros asrt a per HS HR HC HB. unfold py_clusters, to_long.
  rewrite (cast_between long_range (- 2 ^ 63) (2 ^ 63) a); auto; [|lia|].
  2:{ intros z Hz. unfold long_range, two63. apply andb_true_intro. split; [apply Z.leb_le|apply Z.ltb_lt]; lia. }
  cbn [bind i_shape i_vals].
  destruct (ClusterTop.clusters_ok asrt (a_shape a) (map trunc (a_vals a)) per HS HR) as (lab & E & L & Z0 & P & _).
  { unfold lenZ. rewrite map_length. exact HC. }
  exists lab. split; auto. split; auto. split.
  - intros p Hp. rewrite (Z0 p Hp), zn_trunc. apply trunc_zero.
  - intros p q Hp Hq Np Nq. rewrite (P p q Hp Hq); [|rewrite <- Z0; auto|rewrite <- Z0; auto].
    apply linked_ext. intros x. split; intros [X1 X2]; split; auto; rewrite (Z0 x X1) in *; auto.
Qed.

(** ** Histories of the labeller in Python *)

Lemma counts_rank : forall a l (x : res (list Z)), counts a l -> with_rank 1 a x = x.
Proof. intros a l x ((n & S) & _). unfold with_rank. rewrite S. reflexivity. Qed.

Lemma same_loads : forall g o o', same_op o o' -> legal (g_shape g) o' -> py_load_op g o = Ok o'.
Proof.
  intros g o o' H HL. destruct H; cbn [py_load_op]; auto.
  - destruct HL as [S _]. unfold with_rank. destruct H as (S1 & H). replace (lenZ (a_shape a)) with (lenZ (g_shape g)) by congruence. rewrite Z.eqb_refl.
    rewrite (integers_int a i); [reflexivity|split; auto].
  - rewrite (counts_rank _ _ _ H). destruct (counts_size _ _ H) as [E _]. rewrite E. reflexivity.
  - rewrite (counts_rank _ _ _ H). destruct (counts_size _ _ H) as [E _]. rewrite E. reflexivity.
Qed.

Lemma py_run_same : forall asrt g ops ops', Forall2 same_op ops ops' -> Forall (legal (g_shape g)) ops' ->
  py_run asrt g ops = Cluster.run asrt g ops'.
Proof.
  intros asrt g ops ops' H. unfold py_run, Cluster.run. generalize (init g). induction H as [|o o' ops ops' HO _ IH]; intros s HL; auto.
  inversion HL; subst. cbn [py_run_from run_from]. unfold py_step. rewrite (same_loads g o o' HO) by auto. cbn [bind].
  destruct (step asrt g s o') as [[s1 out]| | |]; auto. cbn [bind]. rewrite IH by auto. reflexivity.
Qed.

Lemma u64_range : forall z, 0 <= u64 z < two64.
Proof. intros z. unfold u64. apply Z.mod_pos_bound. reflexivity. Qed.

Lemma any_loads : forall g o, any_op o -> py_load_op g o = Throw \/ exists o', py_load_op g o = Ok o' /\ representable o'.
Proof.
  intros g o H. destruct o as [a|a|a| |]; cbn [py_load_op any_op] in *; try (right; eexists; split; [reflexivity|exact I]).
  - destruct H as [HC HB]. unfold with_rank. destruct (_ =? _); [|left; reflexivity]. right. unfold to_int.
    rewrite (cast_between int_range (- 2 ^ 31) (2 ^ 31) a); auto; [|lia|].
    2:{ intros z Hz. unfold int_range. apply andb_true_intro. split; [apply Z.leb_le|apply Z.ltb_lt]; lia. }
    cbn [bind i_shape i_vals]. eexists. split; [reflexivity|]. cbn [representable]. unfold lenZ. rewrite map_length. exact HC.
  - unfold with_rank. destruct (_ =? _); [|left; reflexivity]. right. unfold to_size.
    replace (is_float (a_dtype a)) with false by (destruct (a_dtype a); auto; destruct H; contradiction).
    cbn [andb bind]. eexists. split; [reflexivity|]. intros p Hp. apply in_map_iff in Hp. destruct Hp as (z & <- & _).
    pose proof (u64_range z). unfold two63. lia.
  - unfold with_rank. destruct (_ =? _); [|left; reflexivity]. right. unfold to_size.
    replace (is_float (a_dtype a)) with false by (destruct (a_dtype a); auto; destruct H; contradiction).
    cbn [andb bind]. eexists. split; [reflexivity|]. intros p Hp. apply in_map_iff in Hp. destruct Hp as (z & <- & _).
    pose proof (u64_range z). unfold two63. lia.
Qed.

Lemma py_prefix : forall g ops s, Forall any_op ops ->
  exists l, Forall representable l /\
    (py_run_from true g s ops = run_from true g s l \/
     (forall r, run_from true g s l = Ok r -> py_run_from true g s ops = Throw) /\
     (run_from true g s l = Throw -> py_run_from true g s ops = Throw)).
Proof.
  intros g ops. induction ops as [|o ops IH]; intros s H.
  - exists []. split; [constructor|]. left. reflexivity.
  - inversion H; subst. cbn [py_run_from]. unfold py_step. destruct (any_loads g o H2) as [E|(o' & E & R)].
    + exists []. split; [constructor|]. right. rewrite E. split; auto.
    + rewrite E. cbn [bind]. destruct (step true g s o') as [[s1 out]| | |] eqn:ES.
      * destruct (IH s1 H3) as (l & FL & D). exists (o' :: l). split; [constructor; auto|]. cbn [run_from]. rewrite ES. cbn [bind].
        destruct D as [D|[D1 D2]].
        -- left. rewrite D. reflexivity.
        -- right. destruct (run_from true g s1 l) as [r| | |] eqn:ER; cbn [bind].
           ++ rewrite (D1 r eq_refl). split; auto.
           ++ rewrite (D2 eq_refl). split; auto.
           ++ split; intros; discriminate.
           ++ split; intros; discriminate.
      * exists [o']. split; [constructor; auto|]. left. cbn [run_from]. rewrite ES. reflexivity.
      * exists [o']. split; [constructor; auto|]. left. cbn [run_from]. rewrite ES. reflexivity.
      * exists [o']. split; [constructor; auto|]. left. cbn [run_from]. rewrite ES. reflexivity.
Qed.

Lemma py_run_any : forall g ops, wf g -> Forall any_op ops -> (exists r, py_run true g ops = Ok r) \/ py_run true g ops = Throw.
Proof.
  intros g ops HW H. destruct (py_prefix g ops (init g) H) as (l & FL & D). unfold py_run.
  destruct (ClusterTop.run_asserted g l HW FL) as [[r E]|[E _]]; unfold Cluster.run in E.
  - destruct D as [D|[D1 _]]; [left; exists r; congruence|right; eauto].
  - destruct D as [D|[_ D2]]; right; [congruence|auto].
Qed.

(** ** Witnesses *)

Lemma dilate_position_refuted :
  (exists r out, valid_request r /\ in_order r /\ py_dilate true (positionals r) [] = Ok out /\ ~ answers true r (Ok out)) /\
  (exists r out, valid_request r /\ in_order r /\ answers true r (Ok out) /\ py_dilate true (positionals r) [] = Throw).
Proof.
  set (f := mkarray Int64 [5] (map zq [0; 0; 1; 0; 0])).
  assert (HF : integers (- 2 ^ 31) (2 ^ 31) f (mkimg [5] [0; 0; 1; 0; 0])).
  { split; [reflexivity|]. split; [reflexivity|]. repeat constructor; lia. }
  set (k := mkarray Int64 [3] (map zq [1; 1; 0])).
  assert (HK : integers (- 2 ^ 31) (2 ^ 31) k (mkimg [3] [1; 1; 0])).
  { split; [reflexivity|]. split; [reflexivity|]. repeat constructor; lia. }
  split.
  - exists (mkrequest f (Some k) None None), [0; 1; 1; 1; 0]. split; [split; [eexists; exact HF|split; [eexists; exact HK|exact I]]|].
    split; [intros _; reflexivity|]. split; [vm_compute; reflexivity|]. intros A. specialize (A _ HF _ HK). vm_compute in A. discriminate.
  - exists (mkrequest f None (Some (Times 2)) None), [1; 1; 1; 1; 1]. split; [split; [eexists; exact HF|split; [exact I|cbn; lia]]|].
    split; [intros H; discriminate|]. split; [|vm_compute; reflexivity]. intros i HI.
    assert (E : i = mkimg [5] [0; 0; 1; 0; 0]) by (pose proof (integers_int _ _ HI) as E1; pose proof (integers_int _ _ HF) as E2; cbn [r_image] in E1; congruence). subst i. cbn [r_kernel r_iterations r_periodic]. vm_compute. reflexivity.
Qed.

Lemma foreground_refuted :
  exists a lab p, good_shape (a_shape a) /\ complete a /\ between (- 2 ^ 63) (2 ^ 63) a /\
    py_clusters true a true = Ok lab /\ pixel (a_shape a) p /\ value_at a p <> 0%Qc /\ zn lab p = 0.
Proof.
  exists (mkarray Float64 [3] [Q2Qc (1 # 2); zq 1; zq 0]), [0; 1; 0], 0.
  split; [split; [discriminate|split; [repeat constructor; lia|reflexivity]]|]. split; [reflexivity|].
  split; [repeat constructor; try (vm_compute; discriminate); vm_compute; reflexivity|]. split; [vm_compute; reflexivity|].
  split; [split; [lia|reflexivity]|]. split; [vm_compute; discriminate|reflexivity].
Qed.

(** ** Calls of [dilate] that ask for nothing *)

Lemma match_args_bound : forall ps pos kw l, match_args ps pos kw = Some l -> (List.length pos <= List.length ps)%nat.
Proof.
  induction ps as [|p ps IH]; intros [|x pos] kw l E; cbn [match_args] in E; cbn [List.length]; try lia; try discriminate.
  destruct (match_args ps pos kw) eqn:E1; [|discriminate]. apply IH in E1. lia.
Qed.

Lemma match_args_named : forall ps pos kw l k x, match_args ps pos kw = Some l -> NoDup (map fst kw) -> In (k, x) kw ->
  exists p, In p (skipn (List.length pos) ps) /\ p_name p = k /\ In (p_type p, x) l.
Proof.
  induction ps as [|p ps IH]; intros pos kw l k x E ND I.
  - destruct pos; cbn [match_args] in E; [|discriminate]. destruct kw; [destruct I|discriminate].
  - destruct pos as [|y pos]; cbn [match_args] in E.
    + cbn [List.length skipn].
      destruct (String.eqb k (p_name p)) eqn:K.
      * apply String.eqb_eq in K. subst k. assert (N : named (p_name p) kw = Some x).
        { unfold named. destruct (find (fun k0 => String.eqb (fst k0) (p_name p)) kw) as [[k' x']|] eqn:F.
          - apply find_some in F. destruct F as [F1 F2]. cbn [fst] in F2. apply String.eqb_eq in F2. subst k'. cbn [snd]. f_equal.
            clear - ND I F1. induction kw as [|[k' z] kw IHk]; [destruct I|]. cbn [map fst] in ND. inversion ND as [|? ? N1 N2]; subst.
            destruct I as [I|I]; destruct F1 as [F1|F1].
            + congruence.
            + inversion I; subst. destruct N1. apply (in_map fst) in F1. exact F1.
            + inversion F1; subst. destruct N1. apply (in_map fst) in I. exact I.
            + auto.
          - exfalso. apply (find_none _ _ F) in I. cbn [fst] in I. rewrite String.eqb_refl in I. discriminate. }
        rewrite N in E. destruct (match_args ps [] _) eqn:E1; [|discriminate]. inversion E; subst.
        exists p. split; [left; reflexivity|]. split; [reflexivity|left; reflexivity].
      * destruct (match named (p_name p) kw with Some x0 => Some x0 | None => p_default p end) as [y|]; [|discriminate].
        destruct (match_args ps [] _) eqn:E1; [|discriminate]. inversion E; subst.
        destruct (IH [] _ _ k x E1) as (q & Q1 & Q2 & Q3).
        { clear - ND. induction kw as [|[k' z] kw IHk]; [exact ND|]. cbn [map fst] in ND. inversion ND as [|? ? N1 N2]; subst.
          cbn [filter fst]. destruct (negb _); [|auto]. cbn [map fst]. constructor; [|auto].
          intros H. apply N1. apply in_map_iff in H. destruct H as (y & Y1 & Y2). apply filter_In in Y2.
          apply in_map_iff. exists y. tauto. }
        { apply filter_In. split; [exact I|]. cbn [fst]. rewrite K. reflexivity. }
        exists q. split; [right; exact Q1|]. split; [exact Q2|right; exact Q3].
    + destruct (match_args ps pos kw) eqn:E1; [|discriminate]. inversion E; subst.
      destruct (IH pos kw _ k x E1 ND I) as (q & Q1 & Q2 & Q3).
      exists q. split; [exact Q1|]. split; [exact Q2|right; exact Q3].
Qed.

Lemma load_args_none : forall conv l t x, In (t, x) l -> load_arg conv t x = None -> load_args conv l = None.
Proof.
  induction l as [|[t' x'] l IH]; intros t x I N; [destruct I|]. cbn [load_args]. destruct I as [I|I].
  - inversion I; subst. rewrite N. reflexivity.
  - rewrite (IH _ _ I N). destruct (load_arg conv t' x'); reflexivity.
Qed.

Lemma dilate_misused : forall asrt pos kw, NoDup (map fst kw) -> misused pos kw -> py_dilate asrt pos kw = Throw.
Proof.
  intros asrt pos kw ND M. unfold py_dilate, call_overloads.
  assert (A : forall conv o, In o (dilate_overloads asrt) -> try_overload conv pos kw o = None).
  { intros conv o O. unfold try_overload. destruct (match_args (fst o) pos kw) as [l|] eqn:E; [|reflexivity].
    assert (S : (List.length (fst o) <= 4)%nat /\ incl (map p_name (fst o)) ["f"; "kernel"; "iterations"; "periodic"]%string /\
                (forall q, In q (fst o) -> p_name q = "iterations"%string -> p_type q = TVector \/ p_type q = TSize) /\
                exists ps, fst o = mkparam "f" TImage None :: ps /\ forall q, In q ps -> p_name q <> "f"%string).
    { clear - O. repeat (destruct O as [O|O]; [subst o; cbn [fst List.length map p_name]|]); [..|destruct O].
      all: split; [lia|]; split; [intros z Z; cbn [In] in *; tauto|].
      all: split; [intros q Q; cbn [In] in Q; repeat (destruct Q as [Q|Q]; [subst q; cbn; intuition discriminate|]); destruct Q|].
      all: eexists; split; [reflexivity|]; intros q Q; cbn [In] in Q; repeat (destruct Q as [Q|Q]; [subst q; discriminate|]); destruct Q. }
    destruct S as (S1 & S2 & S3 & ps & S4 & S5).
    destruct M as [M|k x I M|x M I|M I|n I M|a I M].
    - apply match_args_bound in E. lia.
    - destruct (match_args_named _ _ _ _ _ _ E ND I) as (q & Q1 & Q2 & Q3). destruct M. apply S2. subst k. apply in_map.
      rewrite <- (firstn_skipn (List.length pos)). apply in_or_app. right. exact Q1.
    - destruct (match_args_named _ _ _ _ _ _ E ND I) as (q & Q1 & Q2 & Q3). exfalso.
      destruct pos as [|y pos]; [congruence|]. rewrite S4 in Q1. cbn [List.length skipn] in Q1. apply (S5 q); [|exact Q2].
      rewrite <- (firstn_skipn (List.length pos)). apply in_or_app. right. exact Q1.
    - exfalso. subst pos. rewrite S4 in E. cbn [match_args p_name p_default] in E. unfold named in E.
      destruct (find _ kw) as [[k x]|] eqn:F; [|discriminate]. apply find_some in F. destruct F as [F1 F2].
      cbn [fst] in F2. apply String.eqb_eq in F2. subst k. apply (I x F1).
    - destruct (match_args_named _ _ _ _ _ _ E ND I) as (q & Q1 & Q2 & Q3).
      rewrite (load_args_none conv l _ _ Q3); [reflexivity|]. destruct (S3 q) as [T|T]; [| |rewrite T; reflexivity|rewrite T].
      + rewrite <- (firstn_skipn (List.length pos)). apply in_or_app. right. exact Q1.
      + exact Q2.
      + cbn [load_arg]. replace (0 <=? n) with false by lia. reflexivity.
    - destruct (match_args_named _ _ _ _ _ _ E ND I) as (q & Q1 & Q2 & Q3).
      rewrite (load_args_none conv l _ _ Q3); [reflexivity|]. destruct (S3 q) as [T|T]; [| |rewrite T|rewrite T; reflexivity].
      + rewrite <- (firstn_skipn (List.length pos)). apply in_or_app. right. exact Q1.
      + exact Q2.
      + cbn [load_arg]. replace (lenZ (a_shape a) =? 1) with false by lia. rewrite andb_false_r. reflexivity. }
  assert (F : forall conv, first_some (try_overload conv pos kw) (dilate_overloads asrt) = None).
  { intros conv. specialize (A conv). induction (dilate_overloads asrt) as [|o os IH]; [reflexivity|].
    cbn [first_some]. rewrite A by (left; reflexivity). apply IH. intros o' O'. apply A. right. exact O'. }
  rewrite (F false), (F true). reflexivity.
Qed.

Lemma labels_wrong_rank : forall asrt a i b, integers (- 2 ^ 63) (2 ^ 63) a i ->
  ((forall n, a_shape b <> [n]) -> py_labels_reorder asrt a b = Throw /\ py_labels_sizes_names a b = Throw) /\
  ((forall n m, a_shape b <> [n; m]) -> py_labels_rename asrt a b = Throw).
Proof.
  intros asrt a i b H. unfold py_labels_reorder, py_labels_sizes_names, py_labels_rename. rewrite !(integers_long a i H). cbn [bind]. unfold with_rank. split.
  - intros N. replace (lenZ (a_shape b) =? 1) with false; [auto|]. destruct (a_shape b) as [|x [|y l]]; [reflexivity|destruct (N x); reflexivity|]. symmetry; apply Z.eqb_neq; unfold lenZ; cbn [List.length]; lia.
  - intros N. replace (lenZ (a_shape b) =? 2) with false; [auto|]. destruct (a_shape b) as [|x [|y [|z l]]]; [reflexivity|reflexivity|destruct (N x y); reflexivity|]. symmetry; apply Z.eqb_neq; unfold lenZ; cbn [List.length]; lia.
Qed.

(** ** [iterations=True] *)

Definition alike (b : bool) (x y : string * pyarg) : Prop :=
  fst x = fst y /\ (snd x = snd y \/ fst x = "iterations"%string /\ snd x = PyBool b /\ snd y = PyNum (Z.b2z b)).

Lemma named_alike : forall b kw kw' n, Forall2 (alike b) kw kw' ->
  named n kw = named n kw' \/ n = "iterations"%string /\ named n kw = Some (PyBool b) /\ named n kw' = Some (PyNum (Z.b2z b)).
Proof.
  intros b kw kw' n H. unfold named. induction H as [|[k x] [k' x'] kw kw' [A1 A2] H IH]; [left; reflexivity|]. cbn [find fst snd] in *. subst k'.
  destruct (String.eqb k n) eqn:E; [|exact IH]. apply String.eqb_eq in E. subst k. cbn [snd].
  destruct A2 as [-> |(-> & -> & ->)]; [left; reflexivity|right; auto].
Qed.

Lemma filter_alike : forall b kw kw' n, Forall2 (alike b) kw kw' ->
  Forall2 (alike b) (filter (fun k => negb (String.eqb (fst k) n)) kw) (filter (fun k => negb (String.eqb (fst k) n)) kw').
Proof.
  intros b kw kw' n H. induction H as [|x y kw kw' A H IH]; [constructor|]. cbn [filter]. destruct A as [A1 A2]. rewrite <- A1.
  destruct (negb _); auto. constructor; auto. split; auto.
Qed.

Definition loaded_alike (x y : ptype * pyarg) : Prop := forall conv, load_arg conv (fst x) (snd x) = load_arg conv (fst y) (snd y).

Lemma match_alike : forall b ps pos kw kw', (forall p, In p ps -> p_name p = "iterations"%string -> p_type p = TSize \/ p_type p = TVector) -> Forall2 (alike b) kw kw' ->
  match match_args ps pos kw, match_args ps pos kw' with
  | Some l, Some l' => Forall2 loaded_alike l l' | None, None => True | _, _ => False end.
Proof.
  intros b. induction ps as [|p ps IH]; intros pos kw kw' HP HK.
  - destruct pos; cbn [match_args]; [|exact I]. destruct HK; cbn [forallb]; [constructor|exact I].
  - destruct pos as [|x pos]; cbn [match_args].
    + assert (HP' : forall q, In q ps -> p_name q = "iterations"%string -> p_type q = TSize \/ p_type q = TVector) by (intros; apply HP; auto; right; auto).
      specialize (IH [] _ _ HP' (filter_alike b kw kw' (p_name p) HK)).
      destruct (named_alike b kw kw' (p_name p) HK) as [-> |(E & -> & ->)].
      * destruct (match named (p_name p) kw' with Some x => Some x | None => p_default p end); [|exact I].
        destruct (match_args ps [] _), (match_args ps [] _); try contradiction; auto. constructor; auto. intros conv. reflexivity.
      * destruct (match_args ps [] _), (match_args ps [] _); try contradiction; auto. constructor; auto. intros conv. cbn [fst snd].
        destruct (HP p (or_introl eq_refl) E) as [-> | ->]; [|reflexivity]. destruct b; reflexivity.
    + assert (HP' : forall q, In q ps -> p_name q = "iterations"%string -> p_type q = TSize \/ p_type q = TVector) by (intros; apply HP; auto; right; auto).
      specialize (IH pos kw kw' HP' HK). destruct (match_args ps pos kw), (match_args ps pos kw'); try contradiction; auto. constructor; auto. intros conv. reflexivity.
Qed.

Lemma load_alike : forall conv l l', Forall2 loaded_alike l l' -> load_args conv l = load_args conv l'.
Proof.
  intros conv l l' H. induction H as [|[t x] [t' x'] l l' A H IH]; [reflexivity|]. cbn [load_args]. rewrite IH. specialize (A conv). cbn [fst snd] in A. rewrite A. reflexivity.
Qed.

Lemma iterations_flag : forall asrt pos kw1 kw2 b,
  py_dilate asrt pos (kw1 ++ ("iterations"%string, PyBool b) :: kw2) = py_dilate asrt pos (kw1 ++ ("iterations"%string, PyNum (if b then 1 else 0)) :: kw2).
Proof.
  intros asrt pos kw1 kw2 b.
  assert (HK : Forall2 (alike b) (kw1 ++ ("iterations"%string, PyBool b) :: kw2) (kw1 ++ ("iterations"%string, PyNum (if b then 1 else 0)) :: kw2)).
  { assert (R : forall l, Forall2 (alike b) l l) by (induction l; constructor; auto; split; auto).
    apply Forall2_app; auto. constructor; auto. split; [reflexivity|]. right. destruct b; auto. }
  assert (HO : forall conv o, In o (dilate_overloads asrt) -> try_overload conv pos (kw1 ++ ("iterations"%string, PyBool b) :: kw2) o = try_overload conv pos (kw1 ++ ("iterations"%string, PyNum (if b then 1 else 0)) :: kw2) o).
  { intros conv o IN. unfold try_overload. pose proof (match_alike b (fst o) pos) as MA. specialize (MA (kw1 ++ ("iterations"%string, PyBool b) :: kw2) (kw1 ++ ("iterations"%string, PyNum (if b then 1 else 0)) :: kw2)).
    destruct (match_args (fst o) pos (kw1 ++ ("iterations"%string, PyBool b) :: kw2)), (match_args (fst o) pos (kw1 ++ ("iterations"%string, PyNum (if b then 1 else 0)) :: kw2));
      (lapply MA; [intros MA'; specialize (MA' HK); try contradiction; try (rewrite (load_alike conv _ _ MA')); reflexivity|]);
      intros p IP E; unfold dilate_overloads in IN; cbn [In] in IN; destruct IN as [<-|[<-|[<-|[<-|[]]]]]; cbn [fst In] in IP; intuition subst; cbn in *; try discriminate; auto. }
  unfold py_dilate, call_overloads.
  assert (HF : forall conv, first_some (try_overload conv pos (kw1 ++ ("iterations"%string, PyBool b) :: kw2)) (dilate_overloads asrt) = first_some (try_overload conv pos (kw1 ++ ("iterations"%string, PyNum (if b then 1 else 0)) :: kw2)) (dilate_overloads asrt)).
  { intros conv. assert (X : forall os, (forall o, In o os -> In o (dilate_overloads asrt)) -> first_some (try_overload conv pos (kw1 ++ ("iterations"%string, PyBool b) :: kw2)) os = first_some (try_overload conv pos (kw1 ++ ("iterations"%string, PyNum (if b then 1 else 0)) :: kw2)) os).
    { induction os as [|o os IH]; intros H; [reflexivity|]. cbn [first_some]. rewrite HO by (apply H; left; auto). rewrite IH by (intros; apply H; right; auto). reflexivity. }
    apply X. auto. }
  rewrite !HF. reflexivity.
Qed.
