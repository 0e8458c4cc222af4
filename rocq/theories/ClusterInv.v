(** * ClusterInv: the labeller's internal invariant and its refinement to the
    abstract labelling [rep] (proofs only, no model content). *)

From Coq Require Import ZArith List Bool Lia Sorted Permutation.
From Verif Require Import Base BaseLemmas Cluster.
Import ListNotations.
Open Scope Z_scope.

(** ** sort / unique *)

Lemma zinsert_In : forall x y l, In y (zinsert x l) <-> y = x \/ In y l.
Proof.
  induction l; simpl; [intuition|]. destruct (x <=? a); simpl; rewrite ?IHl; intuition.
Qed.

Lemma zsort_In : forall y l, In y (zsort l) <-> In y l.
Proof. induction l; simpl; [tauto|]. rewrite zinsert_In, IHl. intuition. Qed.

Lemma zinsert_sorted : forall x l, StronglySorted Z.le l -> StronglySorted Z.le (zinsert x l).
Proof.
  induction l; intros; simpl; [repeat constructor|].
  inversion H; subst. destruct (x <=? a) eqn:E.
  - constructor; auto. constructor; [lia|]. eapply Forall_impl; [|exact H3]. simpl; intros; lia.
  - constructor; auto. apply Forall_forall. intros y Hy. apply zinsert_In in Hy.
    rewrite Forall_forall in H3. destruct Hy; [lia|auto].
Qed.

Lemma zsort_sorted : forall l, StronglySorted Z.le (zsort l).
Proof. induction l; simpl; [constructor|]. apply zinsert_sorted; auto. Qed.

Lemma dedup_cons2 : forall x y l, dedup (x :: y :: l) = if x =? y then dedup (y :: l) else x :: dedup (y :: l).
Proof. reflexivity. Qed.

Lemma dedup_In : forall y l, In y (dedup l) <-> In y l.
Proof.
  induction l as [|a l IH]; [reflexivity|]. destruct l as [|b l].
  - simpl; tauto.
  - rewrite dedup_cons2. destruct (a =? b) eqn:E.
    + rewrite IH. simpl. apply Z.eqb_eq in E. intuition congruence.
    + simpl in *. rewrite IH. tauto.
Qed.

Lemma dedup_sorted : forall l, StronglySorted Z.le l -> StronglySorted Z.lt (dedup l).
Proof.
  induction l as [|a l IH]; intros H; [constructor|]. destruct l as [|b l].
  - simpl; repeat constructor.
  - rewrite dedup_cons2. inversion H; subst. destruct (a =? b) eqn:E.
    + auto.
    + constructor; auto. apply Forall_forall. intros y Hy. rewrite dedup_In in Hy.
      pose proof (Forall_inv H3) as Hab. apply Z.eqb_neq in E.
      apply StronglySorted_inv in H2. destruct H2 as [_ H2].
      rewrite Forall_forall in H2.
      destruct Hy as [->|Hy]; [lia|]. specialize (H2 y Hy). lia.
Qed.

Lemma unique_In : forall y l, In y (unique l) <-> In y l.
Proof. intros; unfold unique; now rewrite dedup_In, zsort_In. Qed.

Lemma unique_sorted : forall l, StronglySorted Z.lt (unique l).
Proof. intros; apply dedup_sorted, zsort_sorted. Qed.

Lemma ssorted_lt_NoDup : forall l, StronglySorted Z.lt l -> NoDup l.
Proof.
  induction 1; constructor; auto. intro Hi. rewrite Forall_forall in H0.
  specialize (H0 a Hi). lia.
Qed.

Lemma unique_NoDup : forall l, NoDup (unique l).
Proof. intros; apply ssorted_lt_NoDup, unique_sorted. Qed.

(** ** Chains in the linked list *)

Inductive chain (nxt : list Z) : Z -> list Z -> Prop :=
| chain_nil : forall a, zn nxt a = -1 -> chain nxt a []
| chain_cons : forall a b L, zn nxt a = b -> 1 <= b -> chain nxt b L -> chain nxt a (b :: L).

Fixpoint clast (a : Z) (L : list Z) : Z :=
  match L with [] => a | b :: L' => clast b L' end.

Lemma clast_In : forall L a, clast a L = a \/ In (clast a L) L.
Proof.
  induction L; intros; simpl; auto. destruct (IHL a) as [->|H]; auto.
Qed.

Lemma chain_ext : forall nxt nxt' a L,
  (forall x, In x (a :: L) -> zn nxt' x = zn nxt x) -> chain nxt a L -> chain nxt' a L.
Proof.
  intros nxt nxt' a L H HC. revert H. induction HC; intros; constructor; auto.
  - rewrite H0; simpl; auto.
  - rewrite H1; simpl; auto.
  - apply IHHC. intros; apply H1; simpl in *; tauto.
Qed.

Lemma chain_app : forall nxt a L b L',
  chain nxt a L -> NoDup (a :: L) ->
  (forall x, In x (a :: L) -> 0 <= x < lenZ nxt) ->
  1 <= b -> chain nxt b L' -> (forall x, In x (b :: L') -> ~ In x (a :: L)) ->
  (forall x, In x (b :: L') -> 0 <= x) ->
  chain (upd (Z.to_nat (clast a L)) b nxt) a (L ++ b :: L').
Proof.
  intros nxt a L b L' HC. revert b L'. induction HC; intros b' L' ND HR Hb HC' Hdis Hnn.
  - simpl. constructor; auto.
    + rewrite zn_upd; [rewrite Z.eqb_refl; auto| |]; specialize (HR a (or_introl eq_refl)); lia.
    + eapply chain_ext; [|exact HC']. intros x Hx.
      pose proof (HR a (or_introl eq_refl)). pose proof (Hnn x Hx).
      rewrite zn_upd by lia. destruct (a =? x) eqn:E; auto.
      exfalso. apply (Hdis x Hx). simpl. lia.
  - assert (Hla : clast b L <> a).
    { inversion ND; subst. intro E. destruct (clast_In L (zn nxt a)) as [E'|E'].
      - apply H3. simpl. left. rewrite E in E'. auto.
      - rewrite E in E'. apply H3. simpl; auto. }
    assert (Hr : 0 <= clast b L < lenZ nxt).
    { destruct (clast_In L b) as [->|E']; apply HR; simpl; auto. }
    cbn [clast app]. constructor; auto.
    + rewrite zn_upd; auto; [|specialize (HR a (or_introl eq_refl)); lia].
      destruct (clast b L =? a) eqn:E; [lia|auto].
    + apply IHHC; auto.
      * inversion ND; auto.
      * intros; apply HR; simpl in *; tauto.
      * intros x Hx Hx'. apply (Hdis x Hx). simpl in *; tauto.
Qed.

Lemma chain_functional : forall nxt a L L', chain nxt a L -> chain nxt a L' -> L = L'.
Proof.
  intros nxt a L L' H. revert L'. induction H; intros L' H'; inversion H'; subst; auto; try congruence.
  - rewrite H in *. lia.
  - rewrite H2 in *. lia.
  - f_equal. apply IHchain. assumption.
Qed.

(** ** The invariant *)

Record Inv (N : Z) (s : st) : Prop := mkInv {
  iv_N : 0 <= N;
  iv_len : lenZ (c_label s) = N;
  iv_rlen : lenZ (c_renum s) = N + 1;
  iv_nlen : lenZ (c_next s) = N + 1;
  iv_new : 1 <= c_new s;
  iv_cnt : c_new s - 1 <= lenZ (filter (fun l => negb (l =? 0)) (c_label s));
  iv_lab : forall p, 0 <= p < N -> 0 <= zn (c_label s) p < c_new s;
  iv_r0 : zn (c_renum s) 0 = 0;
  iv_fresh : forall i, c_new s <= i <= N -> zn (c_renum s) i = i /\ zn (c_next s) i = -1;
  iv_chain : forall r, 1 <= r < c_new s -> zn (c_renum s) r = r ->
     exists L, chain (c_next s) r L /\ NoDup (r :: L) /\
       (forall i, In i L -> 1 <= i < c_new s /\ zn (c_renum s) i = r) /\
       (forall p, 0 <= p < N -> zn (c_renum s) (zn (c_label s) p) = r ->
          In (zn (c_label s) p) (r :: L));
  iv_root : forall p, 0 <= p < N -> zn (c_label s) p <> 0 ->
     1 <= zn (c_renum s) (zn (c_label s) p) < c_new s /\
     zn (c_renum s) (zn (c_renum s) (zn (c_label s) p)) = zn (c_renum s) (zn (c_label s) p);
  iv_wit : forall r, 1 <= r < c_new s -> zn (c_renum s) r = r ->
     exists p, 0 <= p < N /\ zn (c_renum s) (zn (c_label s) p) = r;
  iv_nm : 0 <= c_nmerge s;
  iv_nm0 : c_nmerge s = 0 ->
     (forall i, 0 <= i <= N -> zn (c_next s) i = -1) /\
     (forall p, 0 <= p < N -> zn (c_renum s) (zn (c_label s) p) = zn (c_label s) p)
}.

(** Label of each pixel after renumbering. *)
Definition rep (s : st) : list Z := map (fun l => zn (c_renum s) l) (c_label s).

Lemma rep_len : forall s, lenZ (rep s) = lenZ (c_label s).
Proof. intros; unfold rep, lenZ; now rewrite map_length. Qed.

Lemma rep_zn : forall s p, 0 <= p < lenZ (c_label s) ->
  zn (rep s) p = zn (c_renum s) (zn (c_label s) p).
Proof. intros; unfold rep; now rewrite zn_map. Qed.

Lemma filter_le : forall A (f : A -> bool) l, lenZ (filter f l) <= lenZ l.
Proof.
  intros; unfold lenZ. induction l; simpl; [lia|]. destruct (f a); simpl; lia.
Qed.

Lemma inv_newN : forall N s, Inv N s -> c_new s <= N + 1.
Proof.
  intros N s H. pose proof (iv_cnt _ _ H).
  pose proof (filter_le _ (fun l => negb (l =? 0)) (c_label s)).
  rewrite (iv_len _ _ H) in H1. lia.
Qed.

(** ** Initial state *)

Lemma inv_reset : forall N s, 0 <= N -> lenZ (c_label s) = N -> lenZ (c_renum s) = N + 1 ->
  lenZ (c_next s) = N + 1 -> c_nmerge s = 0 -> Inv N (reset s).
Proof.
  intros N s HN H1 H2 H3 H4. unfold lenZ in H1, H2, H3.
  constructor; simpl; rewrite ?repeat_lenZ, ?zseq_lenZ; auto; try lia.
  - pose proof (lenZ_nonneg _ (filter (fun l => negb (l =? 0)) (repeat 0 (length (c_label s))))). lia.
  - intros. rewrite zn_repeat0. lia.
  - rewrite zn_zseq; lia.
  - intros. rewrite zn_zseq, zn_repeat by lia. lia.
  - intros. rewrite zn_repeat0 in H0. lia.
  - intros _. split; intros.
    + apply zn_repeat; lia.
    + rewrite zn_repeat0. rewrite zn_zseq; lia.
Qed.

Lemma init_reset : forall g, 0 <= zprod (g_shape g) -> init g = reset (init g).
Proof.
  intros. unfold init, reset; simpl. rewrite !repeat_length, zseq_length. reflexivity.
Qed.

Lemma inv_init : forall g, 0 <= zprod (g_shape g) -> Inv (zprod (g_shape g)) (init g).
Proof.
  intros. rewrite init_reset by auto. apply inv_reset; auto; unfold init; simpl;
  rewrite ?repeat_lenZ, ?zseq_lenZ; lia.
Qed.

Lemma rep_init : forall g, 0 <= zprod (g_shape g) ->
  rep (init g) = repeat 0 (Z.to_nat (zprod (g_shape g))).
Proof.
  intros. apply list_ext_zn.
  - unfold rep, init; simpl. now rewrite map_length.
  - intros i Hi. rewrite rep_len in Hi. rewrite rep_zn by auto.
    unfold init in *; simpl in *. rewrite !zn_repeat0. rewrite zn_zseq; lia.
Qed.

(** ** The loops of merge_detail *)

Lemma relabel_ok : forall nxt L i fuel renum target,
  chain nxt i L -> 0 <= i < lenZ nxt -> lenZ renum = lenZ nxt ->
  (forall x, In x L -> 0 <= x < lenZ nxt) -> (length L < fuel)%nat ->
  exists renum', relabel fuel nxt renum i target = Ok renum' /\
    lenZ renum' = lenZ renum /\
    forall x, 0 <= x -> zn renum' x = if existsb (Z.eqb x) L then target else zn renum x.
Proof.
  intros nxt L i fuel renum target HC. revert fuel renum.
  induction HC; intros fuel renum Hi Hl HL Hf.
  - destruct fuel; [simpl in Hf; lia|]. simpl. rewrite vget_ok by lia. simpl. rewrite H. simpl. eauto.
  - destruct fuel; [simpl in Hf; lia|]. cbn [relabel]. rewrite vget_ok by lia.
    rewrite bind_Ok, H.
    assert (0 <= b < lenZ nxt) by (apply HL; simpl; auto).
    replace (b =? -1) with false by lia. rewrite vset_ok by lia. rewrite bind_Ok.
    destruct (IHHC fuel (upd (Z.to_nat b) target renum)) as (r & E & Hr & Hz).
    + lia.
    + rewrite upd_lenZ; auto.
    + intros; apply HL; simpl; auto.
    + simpl in Hf; lia.
    + exists r. split; auto. rewrite upd_lenZ in Hr. split; auto.
      intros x Hx. rewrite Hz by auto. simpl. rewrite zn_upd by lia.
      rewrite (Z.eqb_sym x b). destruct (b =? x); simpl; auto. destruct (existsb _ L); auto.
Qed.

Lemma list_end_ok : forall nxt L a fuel, chain nxt a L -> 0 <= a < lenZ nxt ->
  (forall x, In x L -> 0 <= x < lenZ nxt) -> (length L < fuel)%nat ->
  list_end fuel nxt a = Ok (clast a L).
Proof.
  intros nxt L a fuel HC. revert fuel. induction HC; intros fuel Ha HL Hf;
    (destruct fuel; [simpl in Hf; lia|]); cbn [list_end]; rewrite vget_ok by lia; rewrite bind_Ok, H.
  - reflexivity.
  - assert (0 <= b < lenZ nxt) by (apply HL; simpl; auto).
    replace (b =? -1) with false by lia. simpl. apply IHHC; auto.
    + intros; apply HL; simpl; auto.
    + simpl in Hf; lia.
Qed.

Lemma existsb_eqb : forall x L, existsb (Z.eqb x) L = true <-> In x L.
Proof.
  intros. rewrite existsb_exists. split.
  - intros (y & Hy & E). apply Z.eqb_eq in E. congruence.
  - intros. exists x. split; auto. apply Z.eqb_refl.
Qed.

Lemma existsb_eqb_false : forall x L, existsb (Z.eqb x) L = false <-> ~ In x L.
Proof. intros. rewrite <- existsb_eqb. destruct (existsb (Z.eqb x) L); intuition congruence. Qed.

(** [merge_detail] on two different roots: all labels represented by [b] become
    represented by [a]; everything else is unchanged. *)
Lemma merge_detail_ok : forall N s a b, Inv N s ->
  1 <= a < c_new s -> 1 <= b < c_new s -> a <> b ->
  zn (c_renum s) a = a -> zn (c_renum s) b = b -> 0 < c_nmerge s + 1 ->
  exists s', merge_detail s a b = Ok s' /\
    (forall n, 0 < n -> Inv N (mkst (c_label s') (c_new s') n (c_renum s') (c_next s'))) /\
    c_label s' = c_label s /\ c_new s' = c_new s /\ c_nmerge s' = c_nmerge s /\
    (forall p, 0 <= p < N -> zn (c_renum s') (zn (c_label s) p) =
        let r := zn (c_renum s) (zn (c_label s) p) in if r =? b then a else r) /\
    (forall r, 1 <= r < c_new s -> r <> b -> zn (c_renum s) r = r -> zn (c_renum s') r = r) /\
    zn (c_renum s') b = a.
Proof.
  intros N s a b HI Ha Hb Hab Ra Rb _.
  pose proof (inv_newN _ _ HI) as HnN.
  destruct (iv_chain _ _ HI a Ha Ra) as (La & CA & NDa & LAp & LApix).
  destruct (iv_chain _ _ HI b Hb Rb) as (Lb & CB & NDb & LBp & LBpix).
  pose proof (iv_rlen _ _ HI) as Hrl. pose proof (iv_nlen _ _ HI) as Hnl.
  pose proof (iv_len _ _ HI) as Hll.
  assert (HLa : (length La < length (c_next s))%nat).
  { assert (lenZ (a :: La) <= c_new s - 1).
    { apply NoDup_incl_len; auto; [|lia]. intros x [->|Hx]; [lia|]. apply LAp in Hx. lia. }
    rewrite lenZ_cons in H. unfold lenZ in *. lia. }
  assert (HLb : (length Lb < length (c_next s))%nat).
  { assert (lenZ (b :: Lb) <= c_new s - 1).
    { apply NoDup_incl_len; auto; [|lia]. intros x [->|Hx]; [lia|]. apply LBp in Hx. lia. }
    rewrite lenZ_cons in H. unfold lenZ in *. lia. }
  unfold merge_detail.
  rewrite (vget_ok _ b) by lia. rewrite bind_Ok. rewrite (vget_ok _ a) by lia. rewrite bind_Ok.
  rewrite Ra, Rb. rewrite vset_ok by lia. rewrite bind_Ok.
  destruct (relabel_ok (c_next s) Lb b (length (c_next s)) (upd (Z.to_nat b) a (c_renum s)) a)
    as (rn & E & Hrn & Hz); auto.
  { lia. } { rewrite upd_lenZ; lia. } { intros x Hx; apply LBp in Hx; lia. }
  rewrite E, bind_Ok.
  rewrite (list_end_ok _ La) by (auto; try lia; intros x Hx; apply LAp in Hx; lia).
  rewrite bind_Ok.
  assert (Hcl : 1 <= clast a La < c_new s).
  { destruct (clast_In La a) as [->|Hx]; [lia|]. apply LAp in Hx; lia. }
  rewrite vset_ok by lia. rewrite bind_Ok. rewrite upd_lenZ in Hrn.
  assert (Hrn' : forall x, 0 <= x <= N -> zn rn x =
      if existsb (Z.eqb x) (b :: Lb) then a else zn (c_renum s) x).
  { intros x Hx. rewrite Hz by lia. rewrite zn_upd by lia. cbn [existsb].
    rewrite (Z.eqb_sym x b). destruct (b =? x), (existsb (Z.eqb x) Lb); auto. }
  assert (HBr : forall x, In x (b :: Lb) -> 1 <= x < c_new s /\ zn (c_renum s) x = b).
  { intros x [<-|Hx]; [split; [lia|auto]|]. apply LBp in Hx. auto. }
  assert (HAr : forall x, In x (a :: La) -> 1 <= x < c_new s /\ zn (c_renum s) x = a).
  { intros x [<-|Hx]; [split; [lia|auto]|]. apply LAp in Hx. auto. }
  assert (Hdis : forall x, In x (b :: Lb) -> ~ In x (a :: La)).
  { intros x Hx Hx'. apply HBr in Hx. apply HAr in Hx'. lia. }
  (* value at a pixel *)
  assert (Hpix : forall p, 0 <= p < N -> zn rn (zn (c_label s) p) =
     if zn (c_renum s) (zn (c_label s) p) =? b then a else zn (c_renum s) (zn (c_label s) p)).
  { intros p Hp. pose proof (iv_lab _ _ HI p Hp). rewrite Hrn' by lia.
    destruct (existsb (Z.eqb (zn (c_label s) p)) (b :: Lb)) eqn:Ex.
    - apply existsb_eqb in Ex. apply HBr in Ex. destruct Ex as [_ ->]. now rewrite Z.eqb_refl.
    - apply existsb_eqb_false in Ex.
      destruct (zn (c_renum s) (zn (c_label s) p) =? b) eqn:Eb; auto.
      apply Z.eqb_eq in Eb. exfalso; apply Ex. apply LBpix; auto. }
  assert (Hroot : forall r, 1 <= r < c_new s -> r <> b -> zn (c_renum s) r = r -> zn rn r = r).
  { intros r Hr Hrb Er. rewrite Hrn' by lia.
    destruct (existsb (Z.eqb r) (b :: Lb)) eqn:Ex; auto.
    apply existsb_eqb in Ex. apply HBr in Ex. lia. }
  assert (Hbb : zn rn b = a).
  { rewrite Hrn' by lia. simpl. now rewrite Z.eqb_refl. }
  eexists. split; [reflexivity|]. simpl. split; [|repeat split; auto].
  intros n Hn. constructor; simpl; auto.
  - apply (iv_N _ _ HI).
  - rewrite Hrn; auto.
  - rewrite upd_lenZ; auto.
  - apply (iv_new _ _ HI).
  - apply (iv_cnt _ _ HI).
  - apply (iv_lab _ _ HI).
  - rewrite Hrn' by lia. rewrite (iv_r0 _ _ HI).
    destruct (existsb (Z.eqb 0) (b :: Lb)) eqn:Ex; auto.
    apply existsb_eqb in Ex. apply HBr in Ex. lia.
  - intros i Hi. destruct (iv_fresh _ _ HI i Hi) as [F1 F2]. split.
    + rewrite Hrn' by lia. destruct (existsb (Z.eqb i) (b :: Lb)) eqn:Ex; auto.
      apply existsb_eqb in Ex. apply HBr in Ex. lia.
    + rewrite zn_upd by lia. destruct (clast a La =? i) eqn:Ec; [lia|auto].
  - intros r Hr Er.
    assert (Hrb : r <> b) by (intros ->; lia).
    assert (Er0 : zn (c_renum s) r = r).
    { rewrite Hrn' in Er by lia. destruct (existsb (Z.eqb r) (b :: Lb)) eqn:Ex; auto.
      apply existsb_eqb in Ex. apply HBr in Ex. subst r. lia. }
    destruct (Z.eq_dec r a) as [->|Hra].
    + exists (La ++ b :: Lb). repeat split.
      * apply chain_app; auto; try lia.
        -- intros x Hx; apply HAr in Hx; lia.
        -- intros x Hx; apply HBr in Hx; lia.
      * change (a :: La ++ b :: Lb) with ((a :: La) ++ (b :: Lb)).
        clear - NDa NDb Hdis. revert NDa Hdis. generalize (a :: La). intros l HND HD.
        induction l as [|x l IH]; [exact NDb|].
        inversion HND; subst. simpl. constructor.
        -- rewrite in_app_iff. intros [H|H]; auto. apply (HD x H). simpl; auto.
        -- apply IH; auto. intros y Hy Hy'. apply (HD y Hy). simpl; auto.
      * apply in_app_or in H. destruct H as [H|H]; [apply LAp in H|apply HBr in H]; lia.
      * apply in_app_or in H. destruct H as [H|H]; [apply LAp in H|apply HBr in H]; lia.
      * apply in_app_or in H. rewrite Hrn' by (destruct H as [H|H]; [apply LAp in H|apply HBr in H]; lia).
        destruct (existsb (Z.eqb i) (b :: Lb)) eqn:Ex; auto.
        apply existsb_eqb_false in Ex. destruct H as [H|H]; [|contradiction]. apply LAp in H. lia.
      * intros p Hp Ep. rewrite Hpix in Ep by auto.
        change (In (zn (c_label s) p) ((a :: La) ++ (b :: Lb))). apply in_or_app.
        destruct (zn (c_renum s) (zn (c_label s) p) =? b) eqn:Eb.
        -- right. apply LBpix; lia.
        -- left. apply LApix; auto.
    + destruct (iv_chain _ _ HI r Hr Er0) as (L & C & ND & LP & LPix).
      exists L. repeat split; auto.
      * eapply chain_ext; [|exact C]. intros x Hx.
        assert (1 <= x < c_new s /\ zn (c_renum s) x = r).
        { destruct Hx as [<-|Hx]; [split; auto|]. apply LP in Hx; lia. }
        rewrite zn_upd by lia. destruct (clast a La =? x) eqn:Ec; auto.
        exfalso. assert (zn (c_renum s) x = a); [|lia].
        apply Z.eqb_eq in Ec. rewrite <- Ec.
        destruct (clast_In La a) as [->|Hx']; auto. apply LAp in Hx'; lia.
      * apply LP in H; lia.
      * apply LP in H; lia.
      * rewrite Hrn' by (apply LP in H; lia).
        destruct (existsb (Z.eqb i) (b :: Lb)) eqn:Ex; [|apply LP in H; lia].
        apply existsb_eqb in Ex. apply HBr in Ex. apply LP in H. lia.
      * intros p Hp Ep. rewrite Hpix in Ep by auto. apply LPix; auto.
        destruct (zn (c_renum s) (zn (c_label s) p) =? b) eqn:Eb; [lia|auto].
  - intros p Hp Hl. rewrite Hpix by auto. destruct (iv_root _ _ HI p Hp Hl) as [R1 R2].
    destruct (zn (c_renum s) (zn (c_label s) p) =? b) eqn:Eb.
    + split; [lia|]. apply Hroot; auto.
    + split; [auto|]. apply Hroot; auto. lia.
  - intros r Hr Er.
    assert (Hrb : r <> b) by (intros ->; lia).
    assert (Er0 : zn (c_renum s) r = r).
    { rewrite Hrn' in Er by lia. destruct (existsb (Z.eqb r) (b :: Lb)) eqn:Ex; auto.
      apply existsb_eqb in Ex. apply HBr in Ex. subst r. lia. }
    destruct (iv_wit _ _ HI r Hr Er0) as (p & Hp & Ep).
    exists p. split; auto. rewrite Hpix by auto. rewrite Ep.
    destruct (r =? b) eqn:Eb; lia.
  - lia.
  - intros; lia.
Qed.
