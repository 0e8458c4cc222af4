(** * LabelsProofs: label utilities (proofs only). *)

From Coq Require Import ZArith List Bool Lia Sorted Permutation.
From Verif Require Import Base BaseLemmas Cluster ClusterInv ClusterRun Labels SpecCluster SpecLabels.
Import ListNotations.
Open Scope Z_scope.

Definition keys (m : zmap) : list Z := map fst m.
Definition msorted (m : zmap) : Prop := StronglySorted Z.lt (keys m).

Lemma memplace_keys : forall m k v x, In x (keys (memplace m k v)) <-> x = k \/ In x (keys m).
Proof.
  induction m as [|[k' v'] m IH]; intros k v x; cbn [memplace keys map fst In].
  - split; intros [H|H]; auto.
  - destruct (k <? k'); [cbn [keys map fst In]; intuition congruence|].
    destruct (k =? k') eqn:E.
    + assert (k = k') by lia. subst. cbn [map fst In]. intuition congruence.
    + cbn [map fst In]. fold (keys (memplace m k v)). fold (keys m). rewrite IH. tauto.
Qed.

Lemma memplace_sorted : forall m k v, msorted m -> msorted (memplace m k v).
Proof.
  unfold msorted. induction m as [|[k' v'] m IH]; intros k v H; cbn [memplace].
  - constructor; constructor.
  - cbn [keys map fst] in H. apply StronglySorted_inv in H. destruct H as [H F]. fold (keys m) in *.
    rewrite Forall_forall in F.
    destruct (k <? k') eqn:E1.
    + cbn [keys map fst]. constructor.
      * constructor; auto. apply Forall_forall; auto.
      * constructor; [lia|]. apply Forall_forall. intros x Hx. apply F in Hx. lia.
    + destruct (k =? k') eqn:E2.
      * cbn [keys map fst]. constructor; auto. apply Forall_forall; auto.
      * cbn [keys map fst]. fold (keys (memplace m k v)). constructor; auto.
        apply Forall_forall. intros x Hx. apply memplace_keys in Hx. destruct Hx as [->|Hx]; [lia|auto].
Qed.

Lemma mfind_keys : forall m k, (exists v, mfind m k = Some v) <-> In k (keys m).
Proof.
  induction m as [|[k' v'] m IH]; intros k; cbn [mfind keys map fst In].
  - split; [intros (v & H); discriminate|tauto].
  - destruct (k =? k') eqn:E.
    + split; [intros _; left; lia|eauto].
    + rewrite IH. unfold keys. split; [auto|]. intros [H|H]; auto. lia.
Qed.

Lemma mfind_none : forall m k, mfind m k = None <-> ~ In k (keys m).
Proof.
  intros. rewrite <- mfind_keys. destruct (mfind m k); split; intros H; try congruence; eauto.
  - exfalso. eauto.
  - intros (v & E). discriminate.
Qed.

Lemma mfind_memplace : forall m k v x,  msorted m -> mfind (memplace m k v) x =
  if x =? k then (match mfind m k with Some w => Some w | None => Some v end) else mfind m x.
Proof.
  unfold msorted. induction m as [|[k' v'] m IH]; intros k v x HS; cbn [memplace mfind].
  - destruct (x =? k); auto.
  - cbn [keys map fst] in HS. apply StronglySorted_inv in HS. destruct HS as [HS F]. fold (keys m) in *.
    rewrite Forall_forall in F.
    destruct (k <? k') eqn:E1; cbn [mfind].
    + destruct (x =? k) eqn:Ex; [|auto].
      replace (k =? k') with false by lia.
      assert (mfind m k = None) as ->; auto. apply mfind_none. intros H. apply F in H. lia.
    + destruct (k =? k') eqn:E2; cbn [mfind].
      * destruct (x =? k) eqn:Ex; [|auto]. replace (x =? k') with true by lia. auto.
      * rewrite IH by auto. destruct (x =? k) eqn:Ex; [|auto].
        replace (x =? k') with false by lia. auto.
Qed.

Lemma mfind_In : forall m k v, msorted m -> (mfind m k = Some v <-> In (k, v) m).
Proof.
  unfold msorted. induction m as [|[k' v'] m IH]; intros k v HS; cbn [mfind In]; [split; [discriminate|tauto]|].
  cbn [keys map fst] in HS. apply StronglySorted_inv in HS. destruct HS as [HS F]. rewrite Forall_forall in F.
  destruct (k =? k') eqn:E.
  - assert (k = k') by lia. subst k'. split.
    + intros H. injection H as ->. auto.
    + intros [H|H]; [congruence|]. exfalso. assert (In k (map fst m)) by (change k with (fst (k, v)); apply in_map; auto).
      apply F in H0. lia.
  - rewrite IH by auto. split; auto. intros [H|H]; auto. injection H; lia.
Qed.

(** ** labels_map *)

Lemma labels_map_ok : forall a b, lenZ a <= lenZ b ->
  exists m, labels_map a b = Ok m /\ msorted m /\
    forall k v, mfind m k = Some v <-> exists i, first_at a k i /\ zn b i = v.
Proof.
  intros a b HL. unfold labels_map.
  assert (G : forall n, Z.of_nat n <= lenZ a -> exists m,
    foldM (fun m i => x <- vget a i ;; y <- vget b i ;; Ok (memplace m x y)) (zseq 0 n) [] = Ok m /\ msorted m /\
    forall k v, mfind m k = Some v <-> exists i, first_at a k i /\ i < Z.of_nat n /\ zn b i = v).
  { induction n as [|n IH]; intros Hn.
    - exists []. split; auto. split; [constructor|]. intros k v. cbn [mfind]. split; [discriminate|].
      intros (i & [Hi _] & Hlt & _). lia.
    - destruct IH as (m & E & HS & H); [lia|]. rewrite zseq_S, foldM_app, E, bind_Ok. cbn [foldM].
      rewrite Z.add_0_l. rewrite vget_ok by lia. rewrite bind_Ok. rewrite vget_ok by lia. rewrite !bind_Ok.
      eexists. split; [reflexivity|]. split; [apply memplace_sorted; auto|].
      intros k v. rewrite mfind_memplace by auto.
      destruct (k =? zn a (Z.of_nat n)) eqn:Ek.
      + assert (k = zn a (Z.of_nat n)) by lia. subst k.
        destruct (mfind m (zn a (Z.of_nat n))) as [w|] eqn:Ew.
        * rewrite <- Ew, H. split.
          -- intros (i & F & Hi & Ei). exists i. split; auto. split; [lia|auto].
          -- intros (i & F & Hi & Ei). exists i. split; auto. split; auto.
             apply H in Ew. destruct Ew as (i' & [F1 [F2 F3]] & Hi' & _).
             destruct (Z.eq_dec i (Z.of_nat n)); [|lia]. subst i.
             destruct F as (_ & _ & F). exfalso. apply (F i'); auto. lia.
        * split.
          -- intros X. injection X as <-. exists (Z.of_nat n). split; [|split; [lia|auto]].
             split; [lia|]. split; auto. intros j Hj Ej.
             (* first occurrence before n would be in the map *)
             assert (exists i, first_at a (zn a (Z.of_nat n)) i /\ i < Z.of_nat n).
             { clear - Hj Ej Hn.
               assert (Q : forall k, (exists i, first_at a (zn a (Z.of_nat n)) i /\ i < Z.of_nat k) \/
                        (forall i, 0 <= i < Z.of_nat k -> (k <= n)%nat -> zn a i <> zn a (Z.of_nat n))).
               { induction k as [|k IHk]; [right; lia|]. destruct IHk as [(i & F & Hi)|IHk].
                 - left. exists i. split; auto. lia.
                 - destruct (Z.eq_dec (zn a (Z.of_nat k)) (zn a (Z.of_nat n))) as [Ez|Ez].
                   + destruct (Nat.le_gt_cases k n) as [Hk|Hk]; [|right; lia].
                     destruct (Nat.le_gt_cases (S k) n) as [Hk'|Hk']; [|right; lia].
                     left. exists (Z.of_nat k). split; [|lia]. split; [lia|]. split; [exact Ez|].
                     intros i Hi. apply IHk; lia.
                   + right. intros i Hi Hk. destruct (Z.eq_dec i (Z.of_nat k)); [subst; auto|]. apply IHk; lia. }
               destruct (Q n) as [Y|Y]; auto. exfalso. apply (Y j); auto. }
             destruct H0 as (i & F & Hi). assert (mfind m (zn a (Z.of_nat n)) = Some (zn b i)) by (apply H; eauto).
             congruence.
          -- intros (i & F & Hi & Ei). destruct (Z.eq_dec i (Z.of_nat n)); [subst; auto|].
             exfalso. assert (mfind m (zn a (Z.of_nat n)) = Some (zn b i)) by (apply H; exists i; split; auto; split; [lia|auto]).
             congruence.
      + rewrite H. split; intros (i & F & Hi & Ei); exists i; split; auto; split; auto; try lia.
        destruct (Z.eq_dec i (Z.of_nat n)); [|lia]. subst i. destruct F as (_ & F & _). lia. }
  destruct (G (length a)) as (m & E & HS & H); [unfold lenZ; lia|]. exists m. split; auto. split; auto.
  intros k v. rewrite H. split; intros (i & F & R); exists i; split; auto; [tauto|]. split; auto.
  destruct F as [F _]. unfold lenZ in F. lia.
Qed.

Lemma exists_first_at : forall a k, In k a -> exists i, first_at a k i.
Proof.
  induction a as [|x a IH]; intros k H; [simpl in H; tauto|].
  destruct (Z.eq_dec x k) as [->|Hx].
  - exists 0. unfold first_at. rewrite lenZ_cons. pose proof (lenZ_nonneg _ a). split; [lia|]. split; [reflexivity|]. lia.
  - destruct H as [H|H]; [congruence|]. destruct (IH k H) as (i & Hi & Ei & Hf).
    exists (i + 1). unfold first_at. rewrite lenZ_cons. split; [lia|].
    assert (Z1 : forall j, 0 <= j -> zn (x :: a) (j + 1) = zn a j).
    { intros j Hj. change (x :: a) with ([x] ++ a). rewrite zn_app_r by (change (lenZ [x]) with 1; lia).
      change (lenZ [x]) with 1. f_equal. lia. }
    rewrite Z1 by lia. split; auto. intros j Hj. destruct (Z.eq_dec j 0) as [->|]; [exact Hx|].
    replace j with (j - 1 + 1) by lia. rewrite Z1 by lia. apply Hf. lia.
Qed.

(** ** labels_rename *)

Fixpoint lookup (rows : list (Z * Z)) (k : Z) : option Z :=
  match rows with
  | [] => None
  | (k', v) :: t => if k =? k' then Some v else lookup t k
  end.

Lemma flat_rows_len : forall rows, lenZ (flat_rows rows) = 2 * lenZ rows.
Proof.
  induction rows; auto. unfold flat_rows. cbn [flat_map]. rewrite lenZ_app. fold (flat_rows rows).
  rewrite IHrows, (lenZ_cons _ a). change (lenZ [fst a; snd a]) with 2. lia.
Qed.

Lemma at2_rows : forall rows i, 0 <= i < lenZ rows ->
  at2 (lenZ rows) 2 (flat_rows rows) i 0 = Ok (fst (nth (Z.to_nat i) rows (0, 0))) /\
  at2 (lenZ rows) 2 (flat_rows rows) i 1 = Ok (snd (nth (Z.to_nat i) rows (0, 0))).
Proof.
  intros rows i Hi. unfold at2. cbn [Z.eqb Pos.eqb].
  replace (i * (if lenZ rows =? 1 then 0 else 2)) with (i * 2).
  2:{ destruct (lenZ rows =? 1) eqn:E; [|auto]. assert (i = 0) by lia. subst; auto. }
  rewrite !vget_ok by (rewrite flat_rows_len; lia).
  assert (G : forall rows i, 0 <= i < lenZ rows -> zn (flat_rows rows) (i * 2 + 0 * 1) = fst (nth (Z.to_nat i) rows (0, 0)) /\
     zn (flat_rows rows) (i * 2 + 1 * 1) = snd (nth (Z.to_nat i) rows (0, 0))).
  { clear. induction rows as [|r rows IH]; intros i Hi; [unfold lenZ in Hi; simpl in Hi; lia|].
    unfold flat_rows. cbn [flat_map]. fold (flat_rows rows).
    destruct (Z.eq_dec i 0) as [->|Hi0]; [split; reflexivity|]. rewrite lenZ_cons in Hi.
    destruct (IH (i - 1) ltac:(lia)) as [A B].
    rewrite !zn_app_r by (change (lenZ [fst r; snd r]) with 2; lia). change (lenZ [fst r; snd r]) with 2.
    replace (i * 2 + 0 * 1 - 2) with ((i - 1) * 2 + 0 * 1) by lia.
    replace (i * 2 + 1 * 1 - 2) with ((i - 1) * 2 + 1 * 1) by lia. rewrite A, B.
    replace (Z.to_nat i) with (S (Z.to_nat (i - 1))) by lia. auto. }
  destruct (G rows i Hi) as [A B]. rewrite A, B. auto.
Qed.

Lemma rename_table_ok : forall rows, exists m, rename_table (lenZ rows) 2 (flat_rows rows) = Ok m /\
  msorted m /\ forall k, mfind m k = lookup rows k.
Proof.
  intros rows. unfold rename_table, zrange. rewrite Z.sub_0_r. replace (Z.to_nat (lenZ rows)) with (length rows) by (unfold lenZ; lia).
  assert (L : forall l1 l2 k, lookup (l1 ++ l2) k = match lookup l1 k with Some v => Some v | None => lookup l2 k end).
  { induction l1 as [|[k' v'] l1 IH]; intros; cbn [app lookup]; auto. destruct (k =? k'); auto. }
  assert (G : forall n, (n <= length rows)%nat -> exists m,
    foldM (fun m i => k <- at2 (lenZ rows) 2 (flat_rows rows) i 0 ;; v <- at2 (lenZ rows) 2 (flat_rows rows) i 1 ;;
             Ok (memplace m k v)) (zseq 0 n) [] = Ok m /\ msorted m /\ forall k, mfind m k = lookup (firstn n rows) k).
  { induction n as [|n IH]; intros Hn.
    - exists []. split; auto. split; [constructor|]. auto.
    - destruct IH as (m & E & HS & H); [lia|]. rewrite zseq_S, foldM_app, E, bind_Ok. cbn [foldM].
      rewrite Z.add_0_l. destruct (at2_rows rows (Z.of_nat n)) as [A B]; [unfold lenZ; lia|].
      rewrite A, B, !bind_Ok. rewrite Nat2Z.id. eexists. split; [reflexivity|].
      split; [apply memplace_sorted; auto|]. intros k. rewrite mfind_memplace, !H by auto.
      assert (X : firstn (S n) rows = firstn n rows ++ [nth n rows (0, 0)]).
      { clear - Hn. revert rows Hn. induction n; intros [|r rows] Hn; simpl in *; try lia; auto. f_equal. apply IHn. lia. }
      rewrite X, L. cbn [lookup]. destruct (nth n rows (0, 0)) as [k0 v0]. cbn [fst snd].
      destruct (k =? k0) eqn:Ek.
      + assert (k = k0) by lia. subst. auto.
      + destruct (lookup (firstn n rows) k); auto. }
  destruct (G (length rows) (le_n _)) as (m & E & HS & H). exists m. split; [exact E|]. split; auto.
  intros k. rewrite H, firstn_all. auto.
Qed.

Definition get0 (o : option Z) : Z := match o with Some v => v | None => 0 end.

(** The renaming loop: absent keys are inserted with 0, which does not change any later
    lookup. *)
Lemma rename_loop : forall labels m ret f, msorted m -> (forall k, get0 (mfind m k) = f k) ->
  exists m', foldM (fun acc l => let (m, ret) := (acc : zmap * list Z) in
               let (m', v) := mindex m l in Ok (m', ret ++ [v])) labels (m, ret) = Ok (m', ret ++ map f labels).
Proof.
  induction labels as [|l labels IH]; intros m ret f HS Hf; cbn [foldM map].
  - exists m. now rewrite app_nil_r.
  - assert (MI : mindex m l = match mfind m l with Some v => (m, v) | None => (memplace m l 0, 0) end) by reflexivity.
    rewrite MI. clear MI. destruct (mfind m l) as [v|] eqn:E; rewrite bind_Ok.
    + destruct (IH m (ret ++ [v]) f HS Hf) as (m' & E'). exists m'. rewrite E'. rewrite <- app_assoc. cbn [app].
      rewrite <- (Hf l), E. reflexivity.
    + destruct (IH (memplace m l 0) (ret ++ [0]) f) as (m' & E').
      * apply memplace_sorted; auto.
      * intros k. rewrite mfind_memplace by auto. destruct (k =? l) eqn:Ek; [|auto].
        assert (k = l) by lia. subst. rewrite E. rewrite <- Hf, E. auto.
      * exists m'. rewrite E'. rewrite <- app_assoc. cbn [app]. rewrite <- (Hf l), E. reflexivity.
Qed.

Lemma check_loop : forall (f : Z -> bool) l,
  foldM (fun (_ : unit) x => assertb true (f x)) l tt = if forallb f l then Ok tt else Throw.
Proof.
  induction l; simpl; auto. destruct (f a); simpl; auto.
Qed.

Definition isSome (o : option Z) : bool := match o with Some _ => true | None => false end.

Lemma labels_rename_ok : forall asrt labels rows,
  labels_rename asrt labels (lenZ rows) 2 (flat_rows rows) =
  if asrt && negb (forallb (fun l => isSome (lookup rows l)) labels) then Throw
  else Ok (map (fun l => get0 (lookup rows l)) labels).
Proof.
  intros asrt labels rows. unfold labels_rename. cbn [Z.eqb Pos.eqb].
  replace (assertb asrt true) with (Ok tt) by (destruct asrt; auto). rewrite bind_Ok.
  destruct (rename_table_ok rows) as (m & E & HS & H). rewrite E, bind_Ok.
  assert (C : (if asrt then foldM (fun (_ : unit) l => assertb true match mfind m l with Some _ => true | None => false end)
                (unique labels) tt else Ok tt) =
     if asrt && negb (forallb (fun l => isSome (lookup rows l)) labels) then Throw else Ok tt).
  { destruct asrt; auto. rewrite (check_loop (fun l => match mfind m l with Some _ => true | None => false end)).
    cbn [andb].
    assert (X : forallb (fun l => match mfind m l with Some _ => true | None => false end) (unique labels) =
                forallb (fun l => isSome (lookup rows l)) labels).
    { destruct (forallb (fun l => isSome (lookup rows l)) labels) eqn:F.
      - apply forallb_forall. intros x Hx. rewrite unique_In in Hx. rewrite forallb_forall in F.
        specialize (F x Hx). rewrite H. exact F.
      - destruct (forallb _ (unique labels)) eqn:F2; auto. rewrite <- F. symmetry. apply forallb_forall.
        intros x Hx. rewrite forallb_forall in F2. specialize (F2 x (proj2 (unique_In x labels) Hx)).
        rewrite H in F2. exact F2. }
    rewrite X. destruct (forallb _ labels); auto. }
  rewrite C. destruct (asrt && _); [reflexivity|]. rewrite bind_Ok.
  destruct (rename_loop labels m [] (fun l => get0 (lookup rows l)) HS) as (m' & E'); [intros; now rewrite H|].
  rewrite E', bind_Ok. reflexivity.
Qed.

Lemma lookup_first : forall rows k v, lookup rows k = Some v <->
  exists i, first_at (map fst rows) k i /\ snd (nth (Z.to_nat i) rows (0, 0)) = v.
Proof.
  induction rows as [|[k' v'] rows IH]; intros k v; cbn [lookup].
  - split; [discriminate|]. intros (i & [Hi _] & _). unfold lenZ in Hi; simpl in Hi; lia.
  - assert (Z1 : forall j, 0 <= j -> zn (map fst ((k', v') :: rows)) (j + 1) = zn (map fst rows) j).
    { intros j Hj. cbn [map fst]. change (k' :: map fst rows) with ([k'] ++ map fst rows).
      rewrite zn_app_r by (change (lenZ [k']) with 1; lia). change (lenZ [k']) with 1. f_equal. lia. }
    assert (L1 : lenZ (map fst ((k', v') :: rows)) = 1 + lenZ (map fst rows)) by (cbn [map]; now rewrite lenZ_cons).
    pose proof (lenZ_nonneg _ (map fst rows)).
    destruct (k =? k') eqn:E.
    + assert (k = k') by lia. subst k'. split.
      * intros X. injection X as ->. exists 0. split; [|reflexivity]. split; [lia|]. split; [reflexivity|lia].
      * intros (i & (Hi & Ei & Hf) & Es). destruct (Z.eq_dec i 0) as [->|Hi0]; [simpl in Es; congruence|].
        exfalso. apply (Hf 0); [lia|reflexivity].
    + rewrite IH. split.
      * intros (i & (Hi & Ei & Hf) & Es). exists (i + 1). split.
        -- split; [lia|]. rewrite Z1 by lia. split; auto. intros j Hj. destruct (Z.eq_dec j 0) as [->|]; [cbn; lia|].
           replace j with (j - 1 + 1) by lia. rewrite Z1 by lia. apply Hf. lia.
        -- replace (Z.to_nat (i + 1)) with (S (Z.to_nat i)) by lia. exact Es.
      * intros (i & (Hi & Ei & Hf) & Es). destruct (Z.eq_dec i 0) as [->|Hi0]; [cbn in Ei; lia|].
        exists (i - 1). split.
        -- split; [lia|]. rewrite <- Z1 by lia. replace (i - 1 + 1) with i by lia. split; auto.
           intros j Hj. rewrite <- Z1 by lia. apply Hf. lia.
        -- replace (Z.to_nat i) with (S (Z.to_nat (i - 1))) in Es by lia. exact Es.
Qed.

Lemma lookup_keys : forall rows k, (exists v, lookup rows k = Some v) <-> In k (map fst rows).
Proof.
  induction rows as [|[k' v'] rows IH]; intros k; cbn [lookup map fst In]; [split; [intros (v & H); discriminate|tauto]|].
  destruct (k =? k') eqn:E; [split; [intros _; left; lia|eauto]|].
  rewrite IH. split; auto. intros [H|H]; auto. lia.
Qed.

(** ** labels_prune *)

Lemma prune_table_spec : forall unq, StronglySorted Z.lt unq ->
  let nzs := filter (fun u => negb (u =? 0)) unq in
  prune_table unq = (if existsb (Z.eqb 0) unq then [(0, 0)] else []) ++ combine nzs (zseq 1 (length nzs)) /\
  lenZ (prune_table unq) = lenZ unq.
Proof.
  intros unq HS nzs. unfold prune_table.
  assert (LC : forall l : list Z, lenZ (combine l (zseq 1 (length l))) = lenZ l).
  { intros. unfold lenZ. rewrite combine_length, zseq_length, Nat.min_id. auto. }
  destruct (existsb (Z.eqb 0) unq) eqn:E.
  - assert (F : match unq with
       | [] => []
       | u0 :: rest => if u0 =? 0 then combine rest (zseq 1 (length rest))
           else combine (filter (fun u => negb (u =? 0)) unq) (zseq 1 (length (filter (fun u => negb (u =? 0)) unq))) end
       = combine nzs (zseq 1 (length nzs))).
    { destruct unq as [|u0 rest]; [discriminate|]. destruct (u0 =? 0) eqn:E0; auto.
      assert (nzs = rest) as ->; auto. unfold nzs. cbn [filter]. rewrite E0. cbn [negb].
      apply filter_all. intros x Hx. apply StronglySorted_inv in HS. destruct HS as [_ HF].
      rewrite Forall_forall in HF. specialize (HF x Hx). lia. }
    cbv zeta. rewrite F. split; auto. rewrite lenZ_cons, LC.
    apply existsb_eqb in E. clear F. unfold nzs. clear nzs LC.
    induction HS as [|a l HS IH HF]; [simpl in E; tauto|]. cbn [filter]. rewrite lenZ_cons.
    destruct (a =? 0) eqn:E0; cbn [negb].
    + rewrite filter_all; [lia|]. intros x Hx. rewrite Forall_forall in HF. specialize (HF x Hx). lia.
    + rewrite lenZ_cons. destruct E as [E|E]; [lia|]. specialize (IH E). lia.
  - cbn [app]. assert (nzs = unq) as ->.
    { unfold nzs. apply filter_all. intros x Hx. destruct (x =? 0) eqn:E0; auto.
      apply existsb_eqb_false in E. exfalso. apply E. assert (x = 0) by lia. subst; auto. }
    split; auto.
Qed.

Lemma lookup_combine : forall l s k, StronglySorted Z.lt l ->
  lookup (combine l (zseq s (length l))) k =
  if existsb (Z.eqb k) l then Some (s - 1 + lenZ (filter (fun u => u <=? k) l)) else None.
Proof.
  induction l as [|x l IH]; intros s k HS; auto. cbn [length zseq combine lookup existsb filter].
  apply StronglySorted_inv in HS. destruct HS as [HS HF]. rewrite Forall_forall in HF.
  destruct (k =? x) eqn:E; cbn [orb].
  - replace (x <=? k) with true by lia. rewrite filter_none; [f_equal; change (lenZ [x]) with 1; lia|].
    intros y Hy. specialize (HF y Hy). lia.
  - rewrite IH by auto. destruct (existsb (Z.eqb k) l) eqn:Ex; auto. apply existsb_eqb in Ex. specialize (HF k Ex).
    replace (x <=? k) with true by lia. rewrite lenZ_cons. f_equal. lia.
Qed.

Lemma labels_prune_ok : forall asrt labels,
  labels_prune asrt labels = Ok (map (fun l => if l =? 0 then 0 else rank labels l) labels).
Proof.
  intros asrt labels. unfold labels_prune. cbv zeta.
  pose proof (unique_sorted labels) as HS.
  destruct (prune_table_spec (unique labels) HS) as [P L]. rewrite <- L. rewrite labels_rename_ok.
  assert (K : forall l, In l labels -> lookup (prune_table (unique labels)) l = Some (if l =? 0 then 0 else rank labels l)).
  { intros l Hl. assert (Hu : In l (unique labels)) by (apply unique_In; auto). rewrite P.
    destruct (l =? 0) eqn:E0.
    - assert (l = 0) by lia. subst l.
      assert (existsb (Z.eqb 0) (unique labels) = true) as -> by (apply existsb_eqb; auto). reflexivity.
    - assert (X : lookup ((if existsb (Z.eqb 0) (unique labels) then [(0, 0)] else []) ++
         combine (used labels) (zseq 1 (length (used labels)))) l = lookup (combine (used labels) (zseq 1 (length (used labels)))) l).
      { destruct (existsb (Z.eqb 0) (unique labels)); cbn [app lookup]; auto. rewrite E0. auto. }
      unfold used in *. rewrite X. rewrite lookup_combine by (apply filter_ssorted; auto).
      assert (existsb (Z.eqb l) (filter (fun u => negb (u =? 0)) (unique labels)) = true) as ->.
      { apply existsb_eqb. apply filter_In. split; auto. rewrite E0. auto. }
      f_equal. }
  assert (forallb (fun l => isSome (lookup (prune_table (unique labels)) l)) labels = true) as ->.
  { apply forallb_forall. intros l Hl. rewrite K by auto. auto. }
  rewrite andb_false_r. f_equal. apply map_ext_in. intros l Hl. rewrite K by auto. auto.
Qed.

(** ** labels_reorder *)

Lemma max_element_ok : forall l, l <> [] -> exists m, max_element l = Ok m /\ In m l /\ forall x, In x l -> x <= m.
Proof.
  intros [|x t] H; [congruence|]. cbn [max_element]. eexists. split; [reflexivity|]. clear H.
  revert x. induction t as [|y t IH]; intros x; cbn [fold_left].
  - split; [simpl; auto|]. intros z [->|[]]. lia.
  - destruct (IH (Z.max x y)) as [A B]. split.
    + destruct A as [A|A]; [|simpl; auto]. rewrite <- A. destruct (Z.max_spec x y) as [[_ ->]|[_ ->]]; simpl; auto.
    + intros z [<-|[<-|Hz]].
      * specialize (B (Z.max x y) (or_introl eq_refl)). lia.
      * specialize (B (Z.max x y) (or_introl eq_refl)). lia.
      * apply B. simpl; auto.
Qed.

Lemma reorder_loop : forall order r, NoDup order -> (forall x, In x order -> 0 <= x < lenZ r) ->
  forall n, (n <= length order)%nat ->
  exists r', foldM (fun r i => o <- vget order i ;; vset r o i) (zseq 0 n) r = Ok r' /\ lenZ r' = lenZ r /\
    forall i, 0 <= i < Z.of_nat n -> zn r' (zn order i) = i.
Proof.
  intros order r HN HR. induction n as [|n IH]; intros Hn.
  - exists r. split; auto. split; auto. lia.
  - destruct IH as (r1 & E & L & H); [lia|]. rewrite zseq_S, foldM_app, E, bind_Ok. cbn [foldM].
    rewrite Z.add_0_l. rewrite vget_ok by (unfold lenZ; lia). rewrite bind_Ok.
    assert (HO : In (zn order (Z.of_nat n)) order) by (apply zn_In; unfold lenZ; lia).
    specialize (HR _ HO) as HRn. rewrite vset_ok by lia. rewrite bind_Ok. eexists. split; [reflexivity|].
    split; [now rewrite upd_lenZ|]. intros i Hi.
    assert (HOi : In (zn order i) order) by (apply zn_In; unfold lenZ; lia).
    rewrite zn_upd by (try (specialize (HR _ HOi)); lia).
    destruct (Z.eq_dec i (Z.of_nat n)) as [->|Hne]; [rewrite Z.eqb_refl; auto|].
    assert (zn order (Z.of_nat n) <> zn order i).
    { intros X. unfold zn in X. rewrite Nat2Z.id in X.
      assert (n = Z.to_nat i) by (apply (proj1 (NoDup_nth order 0) HN); auto; lia). lia. }
    replace (zn order (Z.of_nat n) =? zn order i) with false by lia. apply H. lia.
Qed.

Lemma labels_reorder_ok : forall asrt labels order, order <> [] -> NoDup order ->
  (forall x, In x labels <-> In x order) -> (forall x, In x labels -> 0 <= x) ->
  exists ret, labels_reorder asrt labels order = Ok ret /\ length ret = length labels /\
    forall p, 0 <= p < lenZ labels -> 0 <= zn ret p < lenZ order /\ zn order (zn ret p) = zn labels p.
Proof.
  intros asrt labels order Hne HN HS HP. unfold labels_reorder.
  assert (EU : unique labels = unique order).
  { apply ssorted_ext; try apply unique_sorted. intros x. rewrite !unique_In. auto. }
  rewrite EU, Z.eqb_refl, eqbl_refl. replace (assertb asrt true) with (Ok tt) by (destruct asrt; auto).
  rewrite !bind_Ok. destruct (max_element_ok order Hne) as (m & E & Hm & Hmax). rewrite E, bind_Ok.
  pose proof (HP m (proj2 (HS m) Hm)). replace (m + 1 <? 0) with false by lia. rewrite bind_Ok.
  destruct (reorder_loop order (repeat 0 (Z.to_nat (m + 1))) HN) with (n := length order) as (r & E' & L & H'); auto.
  { intros x Hx. rewrite repeat_lenZ. specialize (Hmax x Hx). pose proof (HP x (proj2 (HS x) Hx)). lia. }
  rewrite E', bind_Ok. rewrite repeat_lenZ in L.
  assert (HR : forall x, In x labels -> 0 <= x < lenZ r).
  { intros x Hx. pose proof (Hmax x (proj1 (HS x) Hx)). pose proof (HP x Hx). lia. }
  rewrite mapM_vget_ok by auto. eexists. split; [reflexivity|]. split; [now rewrite map_length|].
  intros p Hp. rewrite zn_map by auto.
  assert (Hi : In (zn labels p) order) by (apply HS; apply zn_In; auto).
  apply In_zn in Hi. destruct Hi as (i & Hi & Ei). rewrite <- Ei. rewrite H' by (unfold lenZ in Hi; lia). auto.
Qed.

(** ** labels_sizes *)

Definition cnt (l : list Z) (k : Z) : Z := Z.of_nat (count_occ Z.eq_dec l k).

Lemma mset_keys : forall m k v, keys (mset m k v) = keys m.
Proof. induction m as [|[k' v'] m IH]; intros; cbn [mset]; auto. destruct (k =? k'); cbn [keys map fst]; auto. f_equal. apply IH. Qed.

Lemma mfind_mset : forall m k v x, mfind (mset m k v) x =
  if x =? k then (match mfind m k with Some _ => Some v | None => None end) else mfind m x.
Proof.
  induction m as [|[k' v'] m IH]; intros k v x; cbn [mset mfind]; [destruct (x =? k); auto|].
  destruct (k =? k') eqn:E; cbn [mfind].
  - destruct (x =? k) eqn:Ex, (x =? k') eqn:Ex'; auto; lia.
  - destruct (x =? k') eqn:Ex'.
    + replace (x =? k) with false by lia. auto.
    + rewrite IH. auto.
Qed.

Lemma sizes_impl_ok : forall labels, let m := labels_sizes_impl labels in msorted m /\
  forall k, mfind m k = if cnt labels k =? 0 then None else Some (cnt labels k).
Proof.
  intros labels. unfold labels_sizes_impl.
  assert (G : forall done m, msorted m -> (forall k, mfind m k = if cnt done k =? 0 then None else Some (cnt done k)) ->
    forall todo, let m' := fold_left (fun m l => match mfind m l with None => memplace m l 1 | Some v => mset m l (v + 1) end) todo m in
    msorted m' /\ forall k, mfind m' k = if cnt (done ++ todo) k =? 0 then None else Some (cnt (done ++ todo) k)).
  { intros done m HS H todo. revert done m HS H. induction todo as [|x todo IH]; intros done m HS H; cbn [fold_left].
    - rewrite app_nil_r. auto.
    - assert (C1 : forall k, cnt (done ++ [x]) k = cnt done k + if k =? x then 1 else 0).
      { intros k. unfold cnt. rewrite count_occ_app. cbn [count_occ]. destruct (Z.eq_dec x k), (k =? x) eqn:Ek; lia. }
      assert (P : forall k, 0 <= cnt done k) by (intros; unfold cnt; lia).
      replace (done ++ x :: todo) with ((done ++ [x]) ++ todo) by (rewrite <- app_assoc; auto).
      apply IH.
      + destruct (mfind m x); [unfold msorted; rewrite mset_keys; auto|apply memplace_sorted; auto].
      + intros k. rewrite C1. specialize (P k). pose proof (H x) as Hx. destruct (mfind m x) as [v|] eqn:E.
        * rewrite mfind_mset, E. destruct (cnt done x =? 0) eqn:Ez; [discriminate|]. injection Hx as ->.
          destruct (k =? x) eqn:Ek.
          -- assert (k = x) by lia. subst k. replace (cnt done x + 1 =? 0) with false by lia. auto.
          -- rewrite H, Z.add_0_r. auto.
        * rewrite mfind_memplace, E by auto. destruct (cnt done x =? 0) eqn:Ez; [|discriminate].
          destruct (k =? x) eqn:Ek.
          -- assert (k = x) by lia. subst k. replace (cnt done x + 1 =? 0) with false by lia. f_equal. lia.
          -- rewrite H, Z.add_0_r. auto. }
  apply (G [] []); [constructor|]. intros k. reflexivity.
Qed.

Lemma labels_sizes_rows : forall labels, StronglySorted Z.lt (map fst (labels_sizes labels)) /\
  (forall k c, In (k, c) (labels_sizes labels) <-> In k labels /\ c = Z.of_nat (count_occ Z.eq_dec labels k)) /\
  zsum (map snd (labels_sizes labels)) = lenZ labels.
Proof.
  intros labels. destruct (sizes_impl_ok labels) as [HS H]. unfold labels_sizes.
  assert (HR : forall k c, In (k, c) (labels_sizes_impl labels) <-> In k labels /\ c = cnt labels k).
  { intros k c. rewrite <- mfind_In, H by auto. unfold cnt.
    destruct (Z.of_nat (count_occ Z.eq_dec labels k) =? 0) eqn:E.
    - split; [discriminate|]. intros [Hk _]. apply (count_occ_In Z.eq_dec) in Hk. lia.
    - split.
      + intros X. injection X as <-. split; auto. apply (count_occ_In Z.eq_dec). lia.
      + intros [_ ->]. auto. }
  split; [exact HS|]. split; [exact HR|].
  assert (G : forall ks l, NoDup ks -> (forall x, In x l -> In x ks) -> zsum (map (cnt l) ks) = lenZ l).
  { clear. intros ks l HN. induction l as [|x l IH]; intros Hl.
    - induction ks; simpl; auto. inversion HN; subst. rewrite IHks; auto. simpl; tauto.
    - rewrite lenZ_cons, <- IH by (intros; apply Hl; simpl; auto).
      assert (In x ks) by (apply Hl; simpl; auto). clear IH Hl.
      induction ks as [|k ks IHk]; [simpl in H; tauto|]. inversion HN; subst. cbn [map zsum].
      assert (C1 : forall k, cnt (x :: l) k = cnt l k + if x =? k then 1 else 0).
      { intros k'. unfold cnt. cbn [count_occ]. destruct (Z.eq_dec x k'), (x =? k') eqn:Ek; lia. }
      rewrite C1. destruct H as [->|H].
      + rewrite Z.eqb_refl. assert (zsum (map (cnt (x :: l)) ks) = zsum (map (cnt l) ks)); [|lia].
        f_equal. apply map_ext_in. intros y Hy. rewrite C1. destruct (x =? y) eqn:E; [|lia].
        assert (x = y) by lia. subst. tauto.
      + rewrite IHk by auto. destruct (x =? k) eqn:E; [|lia]. assert (x = k) by lia. subst. tauto. }
  rewrite <- (G (map fst (labels_sizes_impl labels)) labels).
  - f_equal. rewrite map_map. apply map_ext_in. intros [k c] Hk. cbn [fst snd]. apply HR in Hk. tauto.
  - apply ssorted_lt_NoDup. exact HS.
  - intros x Hx. apply in_map_iff. exists (x, cnt labels x). split; auto. apply HR. auto.
Qed.

Lemma labels_sizes_names_ok : forall labels names,
  labels_sizes_names labels names = map (fun n => Z.of_nat (count_occ Z.eq_dec labels n)) names.
Proof.
  intros labels names. unfold labels_sizes_names. destruct (sizes_impl_ok labels) as [HS H].
  assert (G : forall names m ret, msorted m -> (forall k, get0 (mfind m k) = cnt labels k) ->
    snd (fold_left (fun acc n => let (m, ret) := (acc : zmap * list Z) in let (m', v) := mindex m n in (m', ret ++ [v]))
          names (m, ret)) = ret ++ map (cnt labels) names).
  { clear. induction names as [|n names IH]; intros m ret HS Hf; cbn [fold_left map]; [now rewrite app_nil_r|].
    assert (MI : mindex m n = match mfind m n with Some v => (m, v) | None => (memplace m n 0, 0) end) by reflexivity.
    rewrite MI. clear MI. destruct (mfind m n) as [v|] eqn:E.
    - rewrite IH by auto. rewrite <- app_assoc. cbn [app]. rewrite <- (Hf n), E. auto.
    - rewrite IH; [| apply memplace_sorted; auto |].
      + rewrite <- app_assoc. cbn [app]. rewrite <- (Hf n), E. auto.
      + intros k. rewrite mfind_memplace by auto. destruct (k =? n) eqn:Ek; [|auto].
        assert (k = n) by lia. subst. rewrite E. rewrite <- Hf, E. auto. }
  rewrite G; auto. intros k. rewrite H. destruct (cnt labels k =? 0) eqn:E; simpl; lia.
Qed.
