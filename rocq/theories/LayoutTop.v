(** * LayoutTop: proofs for SpecLayout (C134) *)

From Coq Require Import ZArith List Bool Lia Permutation Sorted.
From Verif Require Import Base Cluster Labels SpecCluster ClusterGeom SpecLabels LabelsProofs
  LabelsTop ClusterRun ClusterInv Layout SpecLayout.
Import ListNotations.
Open Scope Z_scope.

(** ** Reading *)

Lemma dot_place : forall ix s, dot ix s = place ix s.
Proof. reflexivity. Qed.

Lemma unravel_coords : forall shape p, unravel shape p = coords shape p.
Proof. reflexivity. Qed.

Lemma vget_zn : forall l i, 0 <= i < lenZ l -> vget l i = Ok (zn l i).
Proof.
  intros l i H. unfold vget, zn, lenZ in *. destruct (i <? 0) eqn:E; [lia|].
  rewrite (nth_error_nth' l 0) by lia. auto.
Qed.

Lemma mapM_ok : forall (A B : Type) (f : A -> res B) (g : A -> B) l,
  (forall x, In x l -> f x = Ok (g x)) -> mapM f l = Ok (map g l).
Proof.
  induction l as [|x l IH]; intros H; cbn [mapM map]; auto.
  rewrite (H x) by (left; auto). cbn [bind]. rewrite IH by (intros; apply H; right; auto). auto.
Qed.

Lemma in_zseq : forall n a x, In x (zseq a n) <-> a <= x < a + Z.of_nat n.
Proof.
  induction n; intros a x; cbn [zseq In]; [lia|]. rewrite IHn. lia.
Qed.

Lemma in_zrange : forall a b x, In x (zrange a b) <-> a <= x < b.
Proof. intros. unfold zrange. rewrite in_zseq. lia. Qed.

Lemma len_zseq : forall n a, length (zseq a n) = n.
Proof. induction n; intros; cbn [zseq length]; auto. Qed.

Lemma nodup_zseq : forall n a, NoDup (zseq a n).
Proof.
  induction n; intros a; cbn [zseq]; constructor; auto. rewrite in_zseq. lia.
Qed.

Lemma nth_zseq : forall n a k d, (k < n)%nat -> nth k (zseq a n) d = a + Z.of_nat k.
Proof.
  induction n; intros a k d H; [lia|]. cbn [zseq]. destruct k; cbn [nth]; [lia|].
  rewrite IHn by lia. lia.
Qed.

Lemma map_zn : forall l, map (zn l) (zrange 0 (lenZ l)) = l.
Proof.
  intros l. apply (nth_ext _ _ 0 0).
  - rewrite map_length. unfold zrange. rewrite len_zseq. unfold lenZ. lia.
  - intros n H. rewrite map_length in H. unfold zrange in *. rewrite len_zseq in H.
    rewrite (nth_indep _ 0 (zn l 0)) by (rewrite map_length, len_zseq; auto).
    rewrite map_nth, nth_zseq by auto. unfold zn. f_equal. lia.
Qed.

Lemma zn_map_zrange : forall (f : Z -> Z) n i, 0 <= i < n -> zn (map f (zrange 0 n)) i = f i.
Proof.
  intros f n i H. unfold zn, zrange.
  rewrite (nth_indep _ 0 (f 0)) by (rewrite map_length, len_zseq; lia).
  rewrite map_nth, nth_zseq by lia. f_equal. lia.
Qed.

Lemma zprod_nonneg : forall l, Forall (fun n => 0 <= n) l -> 0 <= zprod l.
Proof. induction 1; cbn [zprod]; nia. Qed.

Lemma positive_of : forall l p, Forall (fun n => 0 <= n) l -> pixel l p -> Forall (fun n => 0 < n) l.
Proof.
  unfold pixel. induction l; intros p H Hp; constructor; inversion H as [|? ? Ha Hl]; subst;
  cbn [zprod] in Hp; pose proof (zprod_nonneg _ Hl).
  - nia.
  - apply (IHl 0); auto. nia.
Qed.

Lemma elements_ok : forall a img, holds a img -> elements a = Ok img.
Proof.
  intros a img (HP & HL & HN & HE). unfold elements, msize. rewrite <- HN.
  rewrite (mapM_ok _ _ _ (zn img)); [now rewrite map_zn|].
  intros p Hp. apply in_zrange in Hp. destruct (HE p) as [H1 H2]; [unfold pixel; lia|].
  unfold element. rewrite unravel_coords, dot_place. fold (place_of a p).
  rewrite vget_zn by auto. now rewrite H2.
Qed.

(** What [flat] reads from an array without gaps: the elements in the order of memory. *)
Definition in_memory (a : marr) : list Z :=
  map (fun i => zn (m_block a) (m_base a + i)) (zrange 0 (msize a)).

Lemma flats_ok : forall a img, holds a img -> dense a -> flats a (msize a) = Ok (in_memory a).
Proof.
  intros a img (HP & HL & HN & HE) HD. unfold flats, in_memory. apply mapM_ok.
  intros i Hi. apply in_zrange in Hi. destruct (HD i Hi) as (p & Hp & <-).
  unfold flat. apply vget_zn. apply HE; auto.
Qed.

Lemma in_memory_len : forall a img, holds a img -> lenZ (in_memory a) = zprod (m_shape a).
Proof.
  intros a img (HP & _). pose proof (zprod_nonneg _ HP). unfold in_memory, lenZ, zrange, msize.
  rewrite map_length, len_zseq. lia.
Qed.

Lemma dense_perm : forall a, Forall (fun n => 0 <= n) (m_shape a) -> dense a ->
  Permutation (zrange 0 (msize a)) (map (place_of a) (zrange 0 (msize a))).
Proof.
  intros a HP HD. apply NoDup_Permutation_bis.
  - apply nodup_zseq.
  - rewrite map_length. auto.
  - intros i Hi. apply in_zrange in Hi. destruct (HD i Hi) as (p & Hp & <-).
    apply in_map_iff. exists p. split; auto. apply in_zrange. auto.
Qed.

Lemma dense_range : forall a p, Forall (fun n => 0 <= n) (m_shape a) -> dense a ->
  pixel (m_shape a) p -> pixel (m_shape a) (place_of a p).
Proof.
  intros a p HP HD Hp. pose proof (dense_perm a HP HD) as H.
  apply in_zrange. apply (Permutation_in _ (Permutation_sym H)).
  apply in_map. apply in_zrange. auto.
Qed.

Lemma dense_inj : forall a p q, Forall (fun n => 0 <= n) (m_shape a) -> dense a ->
  pixel (m_shape a) p -> pixel (m_shape a) q -> place_of a p = place_of a q -> p = q.
Proof.
  intros a p q HP HD Hp Hq E. pose proof (dense_perm a HP HD) as H.
  assert (HN : NoDup (map (place_of a) (zrange 0 (msize a)))).
  { apply (Permutation_NoDup H). apply nodup_zseq. }
  unfold pixel in *. fold (msize a) in *.
  assert (X : forall r, 0 <= r < msize a ->
    nth (Z.to_nat r) (map (place_of a) (zrange 0 (msize a))) (place_of a 0) = place_of a r).
  { intros r Hr. rewrite map_nth. unfold zrange. rewrite nth_zseq by lia. f_equal. lia. }
  pose proof (proj1 (NoDup_nth _ (place_of a 0)) HN (Z.to_nat p) (Z.to_nat q)) as Y.
  rewrite map_length in Y. unfold zrange in Y at 1 2. rewrite len_zseq in Y.
  rewrite !X in Y by auto. specialize (Y ltac:(lia) ltac:(lia) E). lia.
Qed.

Lemma memory_at : forall a img p, holds a img -> dense a -> pixel (m_shape a) p ->
  zn (in_memory a) (place_of a p) = zn img p.
Proof.
  intros a img p HH HD Hp. assert (HP := proj1 HH). destruct HH as (_ & _ & _ & HE).
  pose proof (dense_range a p HP HD Hp) as R. unfold in_memory.
  rewrite zn_map_zrange by apply R. apply HE; auto.
Qed.

Lemma memory_perm : forall a img, holds a img -> dense a -> Permutation (in_memory a) img.
Proof.
  intros a img HH HD. assert (HP := proj1 HH).
  assert (E : img = map (zn (in_memory a)) (map (place_of a) (zrange 0 (msize a)))).
  { rewrite map_map. rewrite <- (map_zn img) at 1.
    replace (lenZ img) with (msize a) by (symmetry; apply HH).
    apply map_ext_in. intros p Hp. symmetry. apply memory_at; auto. apply in_zrange. auto. }
  rewrite E. rewrite <- (map_zn (in_memory a)) at 1.
  rewrite (in_memory_len a img HH). fold (msize a).
  apply Permutation_map. apply dense_perm; auto.
Qed.

(** ** Row-major arrays *)

Lemma c_dense : forall a, c_order a -> dense a.
Proof. intros a H i Hi. exists i. split; auto. Qed.

Lemma c_memory : forall a img, holds a img -> c_order a -> in_memory a = img.
Proof.
  intros a img HH HC. apply (nth_ext _ _ 0 0).
  - pose proof (in_memory_len a img HH). assert (X := proj1 (proj2 (proj2 HH))). unfold lenZ in *. lia.
  - intros n Hn. pose proof (in_memory_len a img HH) as L. unfold lenZ in L.
    assert (HP : pixel (m_shape a) (Z.of_nat n)) by (unfold pixel; lia).
    pose proof (memory_at a img _ HH (c_dense a HC) HP) as M. rewrite (HC _ HP) in M.
    unfold zn in M. now rewrite Nat2Z.id in M.
Qed.

Lemma c_flats : forall a img, holds a img -> c_order a -> flats a (msize a) = Ok img.
Proof.
  intros a img HH HC. rewrite (flats_ok a img HH (c_dense a HC)). now rewrite (c_memory a img).
Qed.

Lemma place_agree : forall shape s t p, Forall (fun n => 0 < n) shape -> pixel shape p ->
  agree shape s t = true -> place (coords shape p) s = place (coords shape p) t.
Proof.
  unfold pixel. induction shape as [|n shape IH]; intros s t p HP Hp H; destruct s, t;
  cbn [agree] in H; try discriminate; cbn [coords place]; auto.
  inversion HP as [|? ? Hn HP']; subst. cbn [zprod] in Hp.
  assert (0 < zprod shape).
  { clear -HP'. induction HP'; cbn [zprod]; nia. }
  apply andb_true_iff in H. destruct H as [H1 H2].
  rewrite (IH s t) by (auto; apply Z.mod_pos_bound; auto).
  apply orb_true_iff in H1. destruct H1 as [H1|H1].
  - apply Z.eqb_eq in H1. subst n. rewrite Z.div_small by lia. lia.
  - apply Z.eqb_eq in H1. subst. auto.
Qed.

Lemma place_cstrides : forall shape p, Forall (fun n => 0 < n) shape -> pixel shape p ->
  place (coords shape p) (cstrides shape) = p.
Proof.
  unfold pixel. induction shape as [|n shape IH]; intros p HP Hp; cbn [coords cstrides place zprod] in *;
  [lia|]. inversion HP as [|? ? Hn HP']; subst.
  assert (0 < zprod shape) by (clear -HP'; induction HP'; cbn [zprod]; nia).
  rewrite IH by (auto; apply Z.mod_pos_bound; auto).
  pose proof (Z.div_mod p (zprod shape)). lia.
Qed.

Lemma cstrides_length : forall shape, length (cstrides shape) = length shape.
Proof. induction shape; cbn [cstrides length]; auto. Qed.

Lemma fstrides_length : forall shape acc, length (fstrides acc shape) = length shape.
Proof. induction shape; intros; cbn [fstrides length]; auto. Qed.

Lemma agree_of_places : forall shape s, Forall (fun n => 0 < n) shape ->
  length s = length shape ->
  (forall p, pixel shape p -> place (coords shape p) s = p) ->
  agree shape s (cstrides shape) = true.
Proof.
  unfold pixel. induction shape as [|n shape IH]; intros s HP HL H; destruct s as [|x s];
  cbn [length] in HL; try lia; cbn [cstrides agree]; auto.
  inversion HP as [|? ? Hn HP']; subst.
  assert (HQ : 0 < zprod shape) by (clear -HP'; induction HP'; cbn [zprod]; nia).
  cbn [coords place zprod] in H. apply andb_true_iff. split.
  - destruct (Z.eq_dec n 1) as [->|N1]; auto. apply orb_true_iff. right. apply Z.eqb_eq.
    specialize (H (zprod shape) ltac:(nia)). rewrite Z.div_same, Z.mod_same in H by lia.
    assert (Z0 : forall s, place (coords shape 0) s = 0).
    { clear -HQ HP'. induction HP'; intros s; cbn [coords]; [destruct s; auto|].
      destruct s; cbn [place]; auto. cbn [zprod] in HQ.
      assert (0 < zprod l) by nia. rewrite Z.div_0_l, Z.mod_0_l by lia. rewrite IHHP'; lia. }
    rewrite Z0 in H. lia.
  - apply IH; auto. intros p Hp. specialize (H p ltac:(nia)).
    rewrite Z.div_small, Z.mod_small in H by auto. lia.
Qed.

Lemma row_major_c : forall a, Forall (fun n => 0 <= n) (m_shape a) ->
  length (m_strides a) = length (m_shape a) -> (row_major a = true <-> c_order a).
Proof.
  intros a HP HL. unfold row_major, c_order. split.
  - intros H p Hp. assert (HP' := positive_of _ _ HP Hp).
    apply orb_true_iff in H. destruct H as [H|H].
    + apply Z.eqb_eq in H. unfold msize in H. unfold pixel in Hp. lia.
    + unfold place_of. rewrite (place_agree _ _ _ _ HP' Hp H). apply place_cstrides; auto.
  - intros H. destruct (Z.eq_dec (msize a) 0) as [->|N]; auto.
    apply orb_true_iff. right. apply agree_of_places; auto.
    apply (positive_of _ 0 HP). pose proof (zprod_nonneg _ HP). unfold pixel. unfold msize in N. lia.
Qed.

(** ** Column-major arrays *)

Lemma place_fstrides : forall shape ix acc, length ix = length shape ->
  place ix (fstrides acc shape) = acc * column shape ix.
Proof.
  induction shape as [|n shape IH]; intros ix acc HL; destruct ix as [|i ix]; cbn [length] in HL;
  try lia; cbn [fstrides place column]; [lia|]. rewrite IH by lia. nia.
Qed.

Lemma column_onto : forall shape i, Forall (fun n => 0 < n) shape -> 0 <= i < zprod shape ->
  exists c, inside shape c /\ column shape c = i.
Proof.
  induction shape as [|n shape IH]; intros i HP Hi; cbn [zprod] in Hi.
  - exists []. split; [exact I|]. cbn. lia.
  - inversion HP as [|? ? Hn HP']; subst.
    destruct (IH (i / n)) as (c & H1 & H2); auto.
    { split; [apply Z.div_pos; lia|]. apply Z.div_lt_upper_bound; lia. }
    exists (i mod n :: c). cbn [inside column]. split.
    + split; auto. apply Z.mod_pos_bound; auto.
    + rewrite H2. pose proof (Z.div_mod i n). lia.
Qed.

Lemma coords_length : forall shape p, length (coords shape p) = length shape.
Proof. induction shape; intros; cbn [coords length]; auto. Qed.

Lemma f_dense : forall a, Forall (fun n => 0 <= n) (m_shape a) -> f_order a -> dense a.
Proof.
  intros a HP HF i Hi. assert (HP' := positive_of _ _ HP Hi).
  destruct (column_onto _ i HP' Hi) as (c & H1 & H2).
  exists (ravel (m_shape a) c). 
  assert (HQ : pixel (m_shape a) (ravel (m_shape a) c)) by (apply ravel_range; auto).
  split; auto. rewrite (HF _ HQ). rewrite coords_ravel by auto. auto.
Qed.

(** ** The functions *)

Lemma clusters_shape_first : forall asrt shape img per,
  clusters asrt shape img per =
  (_ <- make_default shape per ;; clusters asrt shape img per).
Proof. intros. unfold clusters. destruct (make_default shape per); auto. Qed.

Lemma add_image_assert_first : forall asrt g s shape img,
  add_image asrt g s shape img =
  (_ <- assertb asrt (eqbl shape (g_shape g)) ;; add_image asrt g s shape img).
Proof. intros. unfold add_image. destruct (assertb asrt (eqbl shape (g_shape g))); auto. Qed.

Lemma like_c_holds : forall a l, Forall (fun n => 0 <= n) (m_shape a) ->
  lenZ l = zprod (m_shape a) -> holds (like false a l) l.
Proof.
  intros a l HP HL. unfold holds, like, place_of. cbn [m_shape m_strides m_block m_base].
  repeat split; auto.
  - apply cstrides_length.
  - rewrite place_cstrides; auto; [|eapply positive_of; eauto]. unfold pixel in H. lia.
  - rewrite place_cstrides; auto; [|eapply positive_of; eauto]. unfold pixel in H. lia.
  - rewrite place_cstrides; auto. eapply positive_of; eauto.
Qed.

(** Column-major results: [l] in the order of memory, [r] in row-major order. *)
Lemma like_f_holds : forall a l r, Forall (fun n => 0 <= n) (m_shape a) -> f_order a ->
  lenZ l = zprod (m_shape a) -> lenZ r = zprod (m_shape a) ->
  (forall p, pixel (m_shape a) p -> zn l (place_of a p) = zn r p) ->
  holds (like true a l) r.
Proof.
  intros a l r HP HF HL HR HE. pose proof (f_dense a HP HF) as HD.
  unfold holds, like, place_of. cbn [m_shape m_strides m_block m_base].
  assert (X : forall p, pixel (m_shape a) p ->
    place (coords (m_shape a) p) (fstrides 1 (m_shape a)) = place_of a p).
  { intros p Hp. rewrite place_fstrides by apply coords_length. rewrite (HF p Hp). lia. }
  split; [auto|]. split; [apply fstrides_length|]. split; [auto|].
  intros p Hp. rewrite (X p Hp), Z.add_0_l. split; [|auto].
  pose proof (dense_range a p HP HD Hp) as R. unfold pixel in R. lia.
Qed.

(** [labels_rename] on the elements read in any order: a loop over them after the checks. *)
Definition rename_checked (asrt : bool) (l : list Z) (nr nc : Z) (data : list Z) : res zmap :=
  _ <- assertb asrt (nc =? 2) ;;
  m <- rename_table nr nc data ;;
  _ <- (if asrt then
          foldM (fun _ l => assertb true (match mfind m l with Some _ => true | None => false end))
                (unique l) tt
        else Ok tt) ;;
  Ok m.

Definition rename_all (m : zmap) (l : list Z) : list Z := map (fun x => get0 (mfind m x)) l.

Lemma foldM_sorted : forall (A : Type) (f : zmap -> A -> res zmap) l m m', msorted m ->
  (forall m x m', msorted m -> f m x = Ok m' -> msorted m') ->
  foldM f l m = Ok m' -> msorted m'.
Proof.
  induction l as [|x l IH]; intros m m' HS Hf H; cbn [foldM] in H.
  - injection H as <-. auto.
  - destruct (f m x) eqn:E; cbn [bind] in H; try discriminate.
    apply (IH _ _ (Hf _ _ _ HS E) Hf H).
Qed.

Lemma rename_table_sorted : forall nr nc data m, rename_table nr nc data = Ok m -> msorted m.
Proof.
  intros nr nc data m H. unfold rename_table in H. refine (foldM_sorted _ _ _ _ _ _ _ H).
  - constructor.
  - clear H. intros m0 x m' HS H. destruct (at2 nr nc data x 0); cbn [bind] in H; try discriminate.
    destruct (at2 nr nc data x 1); cbn [bind] in H; try discriminate.
    injection H as <-. now apply memplace_sorted.
Qed.

Lemma rename_split : forall asrt l nr nc data,
  labels_rename asrt l nr nc data =
  (m <- rename_checked asrt l nr nc data ;; Ok (rename_all m l)).
Proof.
  intros. unfold labels_rename, rename_checked. destruct (assertb asrt (nc =? 2)); cbn [bind]; auto.
  destruct (rename_table nr nc data) as [m| | |] eqn:E; cbn [bind]; auto.
  apply rename_table_sorted in E.
  match goal with |- bind ?x _ = _ => destruct x end; cbn [bind]; auto.
  destruct (rename_loop l m [] (fun x => get0 (mfind m x)) E) as (m' & E'); auto.
  rewrite E'. cbn [bind snd app]. auto.
Qed.

Lemma unique_perm : forall l r, Permutation l r -> unique l = unique r.
Proof.
  intros l r H. apply ssorted_ext; try apply unique_sorted. intros x. rewrite !unique_In.
  split; intros; [eapply Permutation_in; eauto | eapply Permutation_in; [apply Permutation_sym|]; eauto].
Qed.

Lemma rename_checked_perm : forall asrt l r nr nc data, Permutation l r ->
  rename_checked asrt l nr nc data = rename_checked asrt r nr nc data.
Proof. intros. unfold rename_checked. now rewrite (unique_perm l r). Qed.

Lemma rename_in_memory : forall asrt fort a img nr nc data, holds a img -> dense a ->
  labels_rename_in asrt fort a nr nc data =
  (r <- labels_rename asrt (in_memory a) nr nc data ;; Ok (like fort a r)).
Proof.
  intros asrt fort a img nr nc data HH HD. rewrite rename_split.
  rewrite (rename_checked_perm asrt _ img) by (apply memory_perm; auto).
  unfold labels_rename_in, rename_checked. destruct (assertb asrt (nc =? 2)); cbn [bind]; auto.
  destruct (rename_table nr nc data) as [m| | |] eqn:E; cbn [bind]; auto.
  apply rename_table_sorted in E. rewrite (elements_ok a img HH). cbn [bind].
  match goal with |- bind ?x _ = _ => destruct x end; cbn [bind]; auto.
  rewrite (flats_ok a img HH HD). cbn [bind].
  destruct (rename_loop (in_memory a) m [] (fun x => get0 (mfind m x)) E) as (m' & E'); auto.
  rewrite E'. cbn [bind snd app]. auto.
Qed.

Lemma prune_in_memory : forall asrt fort a img, holds a img -> dense a ->
  labels_prune_in asrt fort a = (r <- labels_prune asrt (in_memory a) ;; Ok (like fort a r)).
Proof.
  intros asrt fort a img HH HD. unfold labels_prune_in, labels_prune.
  rewrite (elements_ok a img HH). cbn [bind]. rewrite (rename_in_memory asrt fort a img) by auto.
  now rewrite (unique_perm (in_memory a) img) by (apply memory_perm; auto).
Qed.

Definition reorder_checked (asrt : bool) (l order : list Z) : res (list Z) :=
  _ <- assertb asrt (lenZ (unique l) =? lenZ (unique order)) ;;
  _ <- assertb asrt (eqbl (unique l) (unique order)) ;;
  maxlab <- max_element order ;;
  renum0 <- (if maxlab + 1 <? 0 then Throw else Ok (repeat 0 (Z.to_nat (maxlab + 1)))) ;;
  foldM (fun r i => o <- vget order i ;; vset r o i) (zseq 0 (length order)) renum0.

Lemma reorder_split : forall asrt l order,
  labels_reorder asrt l order =
  (t <- reorder_checked asrt l order ;; mapM (fun x => vget t x) l).
Proof.
  intros. unfold labels_reorder, reorder_checked.
  destruct (assertb asrt (lenZ (unique l) =? lenZ (unique order))); cbn [bind]; auto.
  destruct (assertb asrt (eqbl (unique l) (unique order))); cbn [bind]; auto.
  destruct (max_element order) as [m| | |]; cbn [bind]; auto.
  destruct (m + 1 <? 0); cbn [bind]; auto.
Qed.

Lemma reorder_checked_perm : forall asrt l r order, Permutation l r ->
  reorder_checked asrt l order = reorder_checked asrt r order.
Proof. intros. unfold reorder_checked. now rewrite (unique_perm l r). Qed.

Lemma reorder_in_memory : forall asrt fort a img order, holds a img -> dense a ->
  labels_reorder_in asrt fort a order =
  (r <- labels_reorder asrt (in_memory a) order ;; Ok (like fort a r)).
Proof.
  intros asrt fort a img order HH HD. rewrite reorder_split.
  rewrite (reorder_checked_perm asrt _ img) by (apply memory_perm; auto).
  unfold labels_reorder_in, reorder_checked. rewrite (elements_ok a img HH). cbn [bind].
  assert (X : forall c d : bool, (if asrt then _ <- assertb true c ;; assertb true d else Ok tt) =
              (_ <- assertb asrt c ;; assertb asrt d)).
  { intros. destruct asrt; auto. }
  rewrite X. clear X.
  destruct (assertb asrt (lenZ (unique img) =? lenZ (unique order))); cbn [bind]; auto.
  destruct (assertb asrt (eqbl (unique img) (unique order))); cbn [bind]; auto.
  destruct (max_element order) as [m| | |]; cbn [bind]; auto.
  destruct (m + 1 <? 0); cbn [bind]; auto.
  match goal with |- bind ?x _ = _ => destruct x end; cbn [bind]; auto.
  rewrite (flats_ok a img HH HD). cbn [bind]. auto.
Qed.

Lemma mapM_vget_all : forall t l, mapM (fun x => vget t x) l =
  if forallb (fun x => (0 <=? x) && (x <? lenZ t)) l then Ok (map (zn t) l) else UB.
Proof.
  induction l as [|x l IH]; cbn [mapM forallb map]; auto.
  destruct ((0 <=? x) && (x <? lenZ t)) eqn:E.
  - apply andb_true_iff in E. rewrite vget_zn by lia. cbn [bind andb]. rewrite IH.
    destruct (forallb _ l); auto.
  - cbn [andb]. replace (vget t x) with (@UB Z); auto. unfold vget.
    apply andb_false_iff in E. destruct (x <? 0) eqn:F; auto.
    unfold lenZ in E. replace (nth_error t (Z.to_nat x)) with (@None Z); auto.
    symmetry. apply nth_error_None. lia.
Qed.

Lemma forallb_perm : forall (f : Z -> bool) l r, Permutation l r -> forallb f l = forallb f r.
Proof.
  induction 1; cbn [forallb]; auto.
  - now rewrite IHPermutation.
  - rewrite !andb_assoc. f_equal. apply andb_comm.
  - congruence.
Qed.

(** The two outcomes of a function that treats every label by itself. *)
Definition by_label (x y : res (list Z)) (l r : list Z) : Prop :=
  (exists g, x = Ok (map g l) /\ y = Ok (map g r)) \/
  x = Throw /\ y = Throw \/ x = UB /\ y = UB \/ x = NoFuel /\ y = NoFuel.

Lemma rename_by_label : forall asrt l r nr nc data, Permutation l r ->
  by_label (labels_rename asrt l nr nc data) (labels_rename asrt r nr nc data) l r.
Proof.
  intros asrt l r nr nc data H. rewrite !rename_split. rewrite (rename_checked_perm _ _ _ _ _ _ H).
  unfold by_label. destruct (rename_checked asrt r nr nc data) as [m| | |]; cbn [bind]; auto.
  left. exists (fun x => get0 (mfind m x)). auto.
Qed.

Lemma prune_by_label : forall asrt l r, Permutation l r ->
  by_label (labels_prune asrt l) (labels_prune asrt r) l r.
Proof.
  intros asrt l r H. unfold labels_prune. rewrite (unique_perm l r H). now apply rename_by_label.
Qed.

Lemma reorder_by_label : forall asrt l r order, Permutation l r ->
  by_label (labels_reorder asrt l order) (labels_reorder asrt r order) l r.
Proof.
  intros asrt l r order H. rewrite !reorder_split. rewrite (reorder_checked_perm _ _ _ _ H).
  unfold by_label. destruct (reorder_checked asrt r order) as [t| | |]; cbn [bind]; auto.
  rewrite !mapM_vget_all, (forallb_perm _ _ _ H). destruct (forallb _ r); auto.
  left. exists (zn t). auto.
Qed.

Lemma by_label_length : forall x y l r z, by_label x y l r -> x = Ok z -> length z = length l.
Proof.
  intros x y l r z [(g & -> & _)|[[-> _]|[[-> _]|[-> _]]]] H; try discriminate.
  injection H as <-. apply map_length.
Qed.

(** Results in row-major order: those of the labels in the order of memory. *)
Lemma dynamic_outcome : forall a img x y (u : res marr), holds a img -> dense a ->
  by_label x y (in_memory a) img -> u = (r <- x ;; Ok (like false a r)) ->
  same_outcome (m_shape a) u x.
Proof.
  intros a img x y u HH HD HB ->. unfold same_outcome. destruct x as [z| | |] eqn:E; cbn [bind]; auto.
  split; auto. apply like_c_holds; [apply HH|].
  pose proof (by_label_length _ _ _ _ z HB eq_refl) as L.
  pose proof (in_memory_len a img HH). unfold lenZ in *. lia.
Qed.

Lemma zn_map_f : forall (g : Z -> Z) l i, 0 <= i < lenZ l -> zn (map g l) i = g (zn l i).
Proof.
  intros g l i H. unfold zn, lenZ in *. rewrite (nth_indep _ 0 (g 0)) by (rewrite map_length; lia).
  apply map_nth.
Qed.

(** Results in column-major order of an array in column-major order. *)
Lemma fort_outcome : forall a img x y (u : res marr), holds a img -> f_order a ->
  by_label x y (in_memory a) img -> u = (r <- x ;; Ok (like true a r)) ->
  same_outcome (m_shape a) u y.
Proof.
  intros a img x y u HH HF HB ->. assert (HP := proj1 HH). pose proof (f_dense a HP HF) as HD.
  unfold same_outcome. destruct HB as [(g & -> & ->)|[[-> ->]|[[-> ->]|[-> ->]]]]; cbn [bind]; auto.
  assert (L : lenZ img = zprod (m_shape a)) by apply HH.
  pose proof (in_memory_len a img HH) as L'.
  split; auto. apply like_f_holds; auto; try (unfold lenZ in *; rewrite map_length; auto).
  intros p Hp. pose proof (dense_range a p HP HD Hp) as R. unfold pixel in *.
  rewrite !zn_map_f by lia. f_equal. apply memory_at; auto.
Qed.

(** ** labels_sizes and labels_map *)

Lemma zmap_ext : forall m n : zmap, msorted m -> msorted n -> (forall k, mfind m k = mfind n k) -> m = n.
Proof.
  unfold msorted. induction m as [|[k v] m IH]; intros n Hm Hn H.
  - destruct n as [|[k v] n]; auto. specialize (H k). cbn [mfind] in H. rewrite Z.eqb_refl in H. discriminate.
  - cbn [keys map fst] in Hm. inversion Hm as [|? ? Sm Fm]; subst.
    destruct n as [|[k' v'] n].
    { specialize (H k). cbn [mfind] in H. rewrite Z.eqb_refl in H. discriminate. }
    cbn [keys map fst] in Hn. inversion Hn as [|? ? Sn Fn]; subst.
    assert (X : forall (q : zmap) z, Forall (Z.lt z) (map fst q) -> forall y, y <= z -> mfind q y = None).
    { intros q z F y Hy. apply mfind_none. intros I. rewrite Forall_forall in F. specialize (F _ I). lia. }
    assert (k = k').
    { destruct (Z.lt_trichotomy k k') as [C|[C|C]]; auto; exfalso.
      - specialize (H k). cbn [mfind] in H. rewrite Z.eqb_refl in H.
        replace (k =? k') with false in H by lia. rewrite (X n k' Fn k) in H by lia. discriminate.
      - specialize (H k'). cbn [mfind] in H. rewrite Z.eqb_refl in H.
        replace (k' =? k) with false in H by lia. rewrite (X m k Fm k') in H by lia. discriminate. }
    subst k'. assert (v = v').
    { specialize (H k). cbn [mfind] in H. rewrite Z.eqb_refl in H. congruence. }
    subst v'. f_equal. apply IH; auto. intros y. specialize (H y). cbn [mfind] in H.
    destruct (y =? k) eqn:E; auto. rewrite (X m k Fm y), (X n k Fn y) by lia. auto.
Qed.

Lemma count_perm : forall l r, Permutation l r -> forall k, cnt l k = cnt r k.
Proof. intros l r H k. unfold cnt. f_equal. revert k. apply Permutation_count_occ. auto. Qed.

Lemma sizes_perm : forall l r, Permutation l r -> labels_sizes_impl l = labels_sizes_impl r.
Proof.
  intros l r H. destruct (sizes_impl_ok l) as [S1 A1]. destruct (sizes_impl_ok r) as [S2 A2].
  apply zmap_ext; auto. intros k. now rewrite A1, A2, (count_perm l r H).
Qed.

Lemma sizes_dense : forall a img names, holds a img -> dense a ->
  labels_sizes_in a = Ok (labels_sizes img) /\
  labels_sizes_names_in a names = Ok (labels_sizes_names img names).
Proof.
  intros a img names HH HD. unfold labels_sizes_in, labels_sizes_names_in.
  rewrite (flats_ok a img HH HD). cbn [bind]. unfold labels_sizes, labels_sizes_names.
  rewrite (sizes_perm (in_memory a) img) by (apply memory_perm; auto). auto.
Qed.

Lemma map_functional : forall l r y z, lenZ l = lenZ r -> lenZ y = lenZ l -> lenZ z = lenZ r ->
  (forall k v, (exists i, 0 <= i < lenZ l /\ zn l i = k /\ zn y i = v) <->
               (exists i, 0 <= i < lenZ r /\ zn r i = k /\ zn z i = v)) ->
  (forall i j, 0 <= i < lenZ r -> 0 <= j < lenZ r -> zn r i = zn r j -> zn z i = zn z j) ->
  labels_map l y = labels_map r z.
Proof.
  intros l r y z L1 L2 L3 H F.
  destruct (labels_map_ok l y) as (m & -> & Sm & Am); [lia|].
  destruct (labels_map_ok r z) as (n & -> & Sn & An); [lia|].
  f_equal. apply zmap_ext; auto.
  assert (X1 : forall k v, mfind m k = Some v -> exists i, 0 <= i < lenZ r /\ zn r i = k /\ zn z i = v).
  { intros k v E. apply H. apply Am in E. destruct E as (i & (A & B & _) & D). eauto. }
  assert (X2 : forall k v, mfind n k = Some v -> exists i, 0 <= i < lenZ r /\ zn r i = k /\ zn z i = v).
  { intros k v E. apply An in E. destruct E as (i & (A & B & _) & D). eauto. }
  assert (In1 : forall (t : list Z) i, 0 <= i < lenZ t -> In (zn t i) t).
  { intros t i Hi. unfold zn. apply nth_In. unfold lenZ in Hi. lia. }
  intros k. destruct (mfind m k) as [v|] eqn:E.
  - destruct (X1 _ _ E) as (i & Hi & Ei & Ev). subst k.
    destruct (exists_first_at r (zn r i)) as (j & Hj); [apply In1; auto|].
    assert (Q : mfind n (zn r i) = Some (zn z j)) by (apply An; eauto). rewrite Q. f_equal.
    rewrite <- Ev. apply F; auto; destruct Hj as (? & ? & _); auto.
  - destruct (mfind n k) as [v|] eqn:E'; auto. destruct (X2 _ _ E') as (i & Hi & Ei & Ev).
    destruct (proj2 (H k v)) as (j & Hj & Ej & _); [eauto|]. subst k.
    destruct (exists_first_at l (zn l j)) as (j' & Hj'); [apply In1; auto|].
    assert (Q : mfind m (zn l j) = Some (zn y j')) by (apply Am; eauto). rewrite Ej in Q. congruence.
Qed.

Lemma flats_same : forall a b x y, holds a x -> holds b y -> m_shape b = m_shape a ->
  dense a -> (forall p, pixel (m_shape a) p -> place_of b p = place_of a p) ->
  dense b /\ flats b (msize a) = Ok (in_memory b).
Proof.
  intros a b x y Ha Hb HS HD HP.
  assert (Db : dense b).
  { intros i Hi. rewrite HS in *. destruct (HD i Hi) as (p & Hp & E). exists p. split; auto.
    rewrite HP; auto. }
  split; auto. replace (msize a) with (msize b) by (unfold msize; now rewrite HS).
  apply (flats_ok b y); auto.
Qed.

Lemma map_same_layout : forall a b x y, holds a x -> holds b y -> m_shape b = m_shape a ->
  dense a -> (forall p, pixel (m_shape a) p -> place_of b p = place_of a p) ->
  (forall p q, pixel (m_shape a) p -> pixel (m_shape a) q -> zn x p = zn x q -> zn y p = zn y q) ->
  labels_map_in a b = labels_map x y.
Proof.
  intros a b x y Ha Hb HS HD HP HF.
  destruct (flats_same a b x y Ha Hb HS HD HP) as [Db Fb].
  unfold labels_map_in. rewrite (flats_ok a x Ha HD), Fb. cbn [bind].
  pose proof (in_memory_len a x Ha) as La. pose proof (in_memory_len b y Hb) as Lb.
  assert (Lx : lenZ x = zprod (m_shape a)) by apply Ha.
  assert (Ly : lenZ y = zprod (m_shape b)) by apply Hb.
  rewrite HS in *. apply map_functional; try lia.
  - intros k v. split.
    + intros (i & Hi & Ei & Ev). rewrite La in Hi. destruct (HD i Hi) as (p & Hp & <-).
      exists p. rewrite Lx. split; [exact Hp|].
      rewrite <- (memory_at a x p Ha HD Hp). split; auto.
      rewrite <- (memory_at b y p Hb Db) by (rewrite HS; auto). rewrite HP; auto.
    + intros (p & Hp & Ep & Ev). rewrite Lx in Hp. exists (place_of a p).
      rewrite La. split; [apply (dense_range a p (proj1 Ha) HD Hp)|].
      rewrite (memory_at a x p Ha HD Hp). split; auto.
      rewrite <- (HP p Hp). rewrite (memory_at b y p Hb Db); auto. rewrite HS; auto.
  - intros i j Hi Hj. rewrite Lx in *. apply HF; auto.
Qed.

(** ** The statements *)

Lemma row_major_all : forall asrt per g s a img, holds a img -> c_order a ->
  clusters_in asrt a per = clusters asrt (m_shape a) img per /\
  add_image_in asrt g s a = add_image asrt g s (m_shape a) img /\
  (forall nr nc data, same_outcome (m_shape a) (labels_rename_in asrt false a nr nc data)
                        (labels_rename asrt img nr nc data)) /\
  same_outcome (m_shape a) (labels_prune_in asrt false a) (labels_prune asrt img) /\
  (forall order, same_outcome (m_shape a) (labels_reorder_in asrt false a order)
                   (labels_reorder asrt img order)) /\
  (forall b y, holds b y -> m_shape b = m_shape a -> c_order b ->
     labels_map_in a b = labels_map img y).
Proof.
  intros asrt per g s a img HH HC. pose proof (c_dense a HC) as HD.
  pose proof (c_memory a img HH HC) as HM.
  split; [|split; [|split; [|split; [|split]]]].
  - unfold clusters_in. rewrite (proj2 (row_major_c a (proj1 HH) (proj1 (proj2 HH))) HC).
    replace (assertb asrt true) with (Ok tt) by (destruct asrt; auto). cbn [bind].
    rewrite (c_flats a img HH HC). symmetry. apply clusters_shape_first.
  - unfold add_image_in. rewrite (c_flats a img HH HC). symmetry. apply add_image_assert_first.
  - intros nr nc data. rewrite <- HM. eapply (dynamic_outcome a img _ _ _ HH HD).
    + apply rename_by_label. apply memory_perm; eauto.
    + apply (rename_in_memory asrt false a img); auto.
  - rewrite <- HM. eapply (dynamic_outcome a img _ _ _ HH HD).
    + apply prune_by_label. apply memory_perm; eauto.
    + apply (prune_in_memory asrt false a img); auto.
  - intros order. rewrite <- HM. eapply (dynamic_outcome a img _ _ _ HH HD).
    + apply reorder_by_label. apply memory_perm; eauto.
    + apply (reorder_in_memory asrt false a img); auto.
  - intros b y Hb HS Cb. unfold labels_map_in. rewrite (c_flats a img HH HC). cbn [bind].
    replace (msize a) with (msize b) by (unfold msize; now rewrite HS).
    rewrite (c_flats b y Hb Cb). auto.
Qed.

Lemma clusters_checked : forall a img per, holds a img ->
  c_order a /\ clusters_in true a per = clusters true (m_shape a) img per \/
  ~ c_order a /\ clusters_in true a per = Throw.
Proof.
  intros a img per HH. assert (R := row_major_c a (proj1 HH) (proj1 (proj2 HH))).
  destruct (row_major a) eqn:E.
  - left. assert (HC : c_order a) by (apply R; auto). split; auto.
    apply (row_major_all true per (mkcfg [] per []) (mkst [] 0 0 [] []) a img HH HC).
  - right. split; [intros C; apply R in C; discriminate|]. unfold clusters_in. now rewrite E.
Qed.

Lemma column_major_all : forall asrt a img, holds a img -> f_order a ->
  (forall nr nc data, same_outcome (m_shape a) (labels_rename_in asrt true a nr nc data)
                        (labels_rename asrt img nr nc data)) /\
  same_outcome (m_shape a) (labels_prune_in asrt true a) (labels_prune asrt img) /\
  (forall order, same_outcome (m_shape a) (labels_reorder_in asrt true a order)
                   (labels_reorder asrt img order)).
Proof.
  intros asrt a img HH HF. pose proof (f_dense a (proj1 HH) HF) as HD.
  pose proof (memory_perm a img HH HD) as HM. split; [|split]; intros; eapply fort_outcome; eauto.
  - apply rename_by_label; eauto.
  - apply (rename_in_memory asrt true a img); auto.
  - apply prune_by_label; eauto.
  - apply (prune_in_memory asrt true a img); auto.
  - apply reorder_by_label; eauto.
  - apply (reorder_in_memory asrt true a img); auto.
Qed.

Lemma dynamic_all : forall asrt a img, holds a img -> dense a ->
  exists mem, lenZ mem = lenZ img /\
    (forall p, pixel (m_shape a) p -> zn mem (place_of a p) = zn img p) /\
    (forall per, clusters_in false a per = clusters false (m_shape a) mem per) /\
    (forall g s, add_image_in asrt g s a = add_image asrt g s (m_shape a) mem) /\
    (forall nr nc data, same_outcome (m_shape a) (labels_rename_in asrt false a nr nc data)
                          (labels_rename asrt mem nr nc data)) /\
    same_outcome (m_shape a) (labels_prune_in asrt false a) (labels_prune asrt mem) /\
    (forall order, same_outcome (m_shape a) (labels_reorder_in asrt false a order)
                     (labels_reorder asrt mem order)).
Proof.
  intros asrt a img HH HD. exists (in_memory a).
  pose proof (memory_perm a img HH HD) as HM.
  split; [|split; [|split; [|split; [|split; [|split]]]]].
  - rewrite (in_memory_len a img HH). symmetry. apply HH.
  - intros. apply memory_at; auto.
  - intros per. unfold clusters_in. cbn [assertb bind]. rewrite (flats_ok a img HH HD).
    symmetry. apply clusters_shape_first.
  - intros g s. unfold add_image_in. rewrite (flats_ok a img HH HD).
    symmetry. apply add_image_assert_first.
  - intros. eapply dynamic_outcome; eauto; [apply rename_by_label; eauto|].
    apply (rename_in_memory asrt false a img); auto.
  - intros. eapply dynamic_outcome; eauto; [apply prune_by_label; eauto|].
    apply (prune_in_memory asrt false a img); auto.
  - intros. eapply dynamic_outcome; eauto; [apply reorder_by_label; eauto|].
    apply (reorder_in_memory asrt false a img); auto.
Qed.

(** ** Concrete arrays *)

Lemma forall_pixels : forall shape (P : Z -> bool), forallb P (zrange 0 (zprod shape)) = true ->
  forall p, pixel shape p -> P p = true.
Proof.
  intros shape P H p Hp. rewrite forallb_forall in H. apply H. apply in_zrange. exact Hp.
Qed.

Definition holdsb (a : marr) (img : list Z) : bool :=
  forallb (fun n => 0 <=? n) (m_shape a) &&
  Nat.eqb (length (m_strides a)) (length (m_shape a)) &&
  (lenZ img =? zprod (m_shape a)) &&
  forallb (fun p => let i := m_base a + place_of a p in
                    (0 <=? i) && (i <? lenZ (m_block a)) && (zn (m_block a) i =? zn img p))
          (zrange 0 (zprod (m_shape a))).

Lemma holdsb_ok : forall a img, holdsb a img = true -> holds a img.
Proof.
  intros a img H. unfold holdsb in H. rewrite !andb_true_iff in H. destruct H as [[[H1 H2] H3] H4].
  split; [|split; [|split]].
  - apply Forall_forall. intros n Hn. rewrite forallb_forall in H1. specialize (H1 n Hn). lia.
  - now apply Nat.eqb_eq.
  - lia.
  - intros p Hp. pose proof (forall_pixels _ _ H4 p Hp) as X. cbv beta zeta in X.
    rewrite !andb_true_iff in X. lia.
Qed.

Lemma f_orderb : forall a,
  forallb (fun p => place_of a p =? column (m_shape a) (coords (m_shape a) p))
    (zrange 0 (zprod (m_shape a))) = true -> f_order a.
Proof. intros a H p Hp. pose proof (forall_pixels _ _ H p Hp). cbv beta in H0. lia. Qed.

Lemma c_orderb : forall a,
  forallb (fun p => place_of a p =? p) (zrange 0 (zprod (m_shape a))) = true -> c_order a.
Proof. intros a H p Hp. pose proof (forall_pixels _ _ H p Hp). cbv beta in H0. lia. Qed.

(** A picture of 2 by 3 pixels in both orders, and two views of a larger array. *)
Definition picture : list Z := [7; 0; 4; 0; 0; 4].
Definition picture_c : marr := mkmarr [2; 3] [3; 1] picture 0.
Definition picture_f : marr := mkmarr [2; 3] [1; 2] [7; 0; 0; 0; 4; 4] 0.
Definition every_second : marr := mkmarr [2; 2] [4; 2] [1; 0; 1; 0; 1; 0; 2; 0] 0.
Definition backwards : marr := mkmarr [3] [-1] [1; 2; 3] 2.

Lemma picture_c_holds : holds picture_c picture /\ c_order picture_c.
Proof. split; [apply holdsb_ok | apply c_orderb]; reflexivity. Qed.

Lemma picture_f_holds : holds picture_f picture /\ f_order picture_f.
Proof. split; [apply holdsb_ok | apply f_orderb]; reflexivity. Qed.

Lemma every_second_holds : holds every_second [1; 1; 1; 2].
Proof. apply holdsb_ok; reflexivity. Qed.

Lemma backwards_holds : holds backwards [3; 2; 1].
Proof. apply holdsb_ok; reflexivity. Qed.

Lemma labels_wrong : exists a img, holds a img /\ f_order a /\
  (exists r l, labels_prune_in true false a = Ok r /\ holds r l /\ labels_prune true img <> Ok l) /\
  (exists rows r l, labels_rename_in true false a (lenZ rows) 2 (table rows) = Ok r /\ holds r l /\
     labels_rename true img (lenZ rows) 2 (table rows) <> Ok l) /\
  (exists order r l, labels_reorder_in true false a order = Ok r /\ holds r l /\
     labels_reorder true img order <> Ok l).
Proof.
  exists picture_f, picture. destruct picture_f_holds as [A B]. split; [auto|]. split; [auto|].
  split; [|split].
  - eexists. exists [2; 0; 0; 0; 1; 1]. split; [reflexivity|].
    split; [apply holdsb_ok; reflexivity|]. vm_compute. discriminate.
  - exists [(0, 0); (4, 1); (7, 5)]. eexists. exists [5; 0; 0; 0; 1; 1]. split; [reflexivity|].
    split; [apply holdsb_ok; reflexivity|]. vm_compute. discriminate.
  - exists [0; 7; 4]. eexists. exists [1; 0; 0; 0; 2; 2]. split; [reflexivity|].
    split; [apply holdsb_ok; reflexivity|]. vm_compute. discriminate.
Qed.

Lemma map_wrong : exists a b img, holds a img /\ holds b img /\ m_shape b = m_shape a /\
  c_order a /\ f_order b /\ exists m, labels_map_in a b = Ok m /\ In (4, 0) m.
Proof.
  exists picture_c, picture_f, picture. destruct picture_f_holds as [A B].
  destruct picture_c_holds as [C D]. repeat (split; [auto; reflexivity|]).
  eexists. split; [reflexivity|]. vm_compute. auto.
Qed.

Lemma add_image_wrong : exists g a img s p q, holds a img /\ f_order a /\
  make_default (m_shape a) true = Ok g /\ add_image_in true g (init g) a = Ok s /\
  pixel (m_shape a) p /\ zn img p <> 0 /\ zn (c_label s) p = 0 /\
  pixel (m_shape a) q /\ zn img q = 0 /\ zn (c_label s) q <> 0.
Proof.
  eexists. exists picture_f, picture. eexists. exists 2, 4. destruct picture_f_holds as [A B].
  split; [auto|]. split; [auto|]. split; [reflexivity|]. split; [vm_compute; reflexivity|].
  unfold pixel. cbn. repeat split; try lia; discriminate.
Qed.

Lemma clusters_wrong : exists a img l p q, holds a img /\ f_order a /\
  clusters_in false a true = Ok l /\
  pixel (m_shape a) p /\ zn img p <> 0 /\ zn l p = 0 /\
  pixel (m_shape a) q /\ zn img q = 0 /\ zn l q <> 0.
Proof.
  exists picture_f, picture. eexists. exists 2, 4. destruct picture_f_holds as [A B].
  split; [auto|]. split; [auto|]. split; [vm_compute; reflexivity|].
  unfold pixel. cbn. repeat split; try lia; discriminate.
Qed.

Lemma gaps_wrong :
  (exists a img, holds a img /\ labels_sizes_in a <> Ok (labels_sizes img) /\
     exists m, labels_sizes_in a = Ok m) /\
  (exists a img, holds a img /\ labels_sizes_in a = UB).
Proof.
  split.
  - exists every_second, [1; 1; 1; 2]. split; [apply every_second_holds|]. split.
    + vm_compute. discriminate.
    + eexists. reflexivity.
  - exists backwards, [3; 2; 1]. split; [apply backwards_holds|]. reflexivity.
Qed.
