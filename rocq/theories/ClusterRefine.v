(** * ClusterRefine: [label_impl] refines a simple abstract step on representatives. *)

From Coq Require Import ZArith List Bool Lia Sorted Permutation.
From Verif Require Import Base BaseLemmas Cluster ClusterInv.
Import ListNotations.
Open Scope Z_scope.

Ltac splits := repeat match goal with |- _ /\ _ => split end.

Definition withnm (s : st) (n : Z) : st :=
  mkst (c_label s) (c_new s) n (c_renum s) (c_next s).

(** Invariant without the clause about [m_nmerge = 0]. *)
Definition Inv1 (N : Z) (s : st) : Prop := Inv N (withnm s 1).

Lemma inv_withnm : forall N s n, 0 < n -> Inv N s -> Inv N (withnm s n).
Proof.
  intros N s n Hn H. destruct H. constructor; simpl; auto; try lia.
Qed.

Lemma inv1_withnm : forall N s n, 0 < n -> Inv1 N s -> Inv N (withnm s n).
Proof. intros N s n Hn H. apply (inv_withnm N (withnm s 1) n Hn H). Qed.

Lemma inv_inv1 : forall N s, Inv N s -> Inv1 N s.
Proof. intros; apply inv_withnm; auto; lia. Qed.

Lemma merge_detail_nm : forall s a b n s', merge_detail s a b = Ok s' ->
  merge_detail (withnm s n) a b = Ok (withnm s' n).
Proof.
  unfold merge_detail; intros s a b n s' H. destruct s; simpl in *.
  repeat (match goal with
  | H : bind ?e _ = Ok _ |- _ => let E := fresh "E" in
      destruct e eqn:E; simpl in H; try discriminate; simpl
  end).
  injection H as <-. reflexivity.
Qed.

Lemma merge_detail_ok1 : forall N s a b, Inv1 N s ->
  1 <= a < c_new s -> 1 <= b < c_new s -> a <> b ->
  zn (c_renum s) a = a -> zn (c_renum s) b = b ->
  exists s', merge_detail s a b = Ok s' /\ Inv1 N s' /\
    c_label s' = c_label s /\ c_new s' = c_new s /\ c_nmerge s' = c_nmerge s /\
    (forall p, 0 <= p < N -> zn (c_renum s') (zn (c_label s) p) =
        let r := zn (c_renum s) (zn (c_label s) p) in if r =? b then a else r) /\
    (forall r, 1 <= r < c_new s -> r <> b -> zn (c_renum s) r = r -> zn (c_renum s') r = r).
Proof.
  intros N s a b HI Ha Hb Hab Ra Rb.
  destruct (merge_detail_ok N (withnm s 1) a b HI) as (s1 & E & I & L1 & L2 & L3 & L4 & L5 & _); simpl; auto; try lia.
  apply merge_detail_nm with (n := c_nmerge s) in E.
  replace (withnm (withnm s 1) (c_nmerge s)) with s in E by (destruct s; reflexivity).
  eexists. split; [exact E|]. simpl in *. splits; auto.
  apply (I 1). lia.
Qed.

Lemma merge_fold_ok : forall N target rest s, Inv1 N s ->
  1 <= target < c_new s -> zn (c_renum s) target = target ->
  ~ In target rest -> NoDup rest ->
  (forall b, In b rest -> 1 <= b < c_new s /\ zn (c_renum s) b = b) ->
  exists s', foldM (fun s b => merge_detail s target b) rest s = Ok s' /\ Inv1 N s' /\
    c_label s' = c_label s /\ c_new s' = c_new s /\ c_nmerge s' = c_nmerge s /\
    zn (c_renum s') target = target /\
    (forall p, 0 <= p < N -> zn (c_renum s') (zn (c_label s) p) =
        let r := zn (c_renum s) (zn (c_label s) p) in
        if existsb (Z.eqb r) rest then target else r).
Proof.
  intros N target rest. induction rest as [|b rest IH]; intros s HI Ht Rt Hnt ND HR.
  - simpl. exists s. splits; auto.
  - destruct (HR b (or_introl eq_refl)) as [Hb Rb].
    inversion ND; subst.
    destruct (merge_detail_ok1 N s target b) as (s1 & E & I1 & L1 & L2 & L3 & L4 & L5); auto.
    { intros ->; apply Hnt; simpl; auto. }
    cbn [foldM]. rewrite E, bind_Ok.
    destruct (IH s1) as (s' & E' & I' & M1 & M2 & M3 & M4 & M5); auto.
    + lia.
    + apply L5; auto. intros ->; apply Hnt; simpl; auto.
    + intro; apply Hnt; simpl; auto.
    + intros c Hc. destruct (HR c (or_intror Hc)). rewrite L2. split; auto. apply L5; auto.
      intros ->; auto.
    + exists s'. rewrite E'. splits; auto; try congruence.
      intros p Hp. rewrite <- L1 at 1. rewrite M5 by auto. rewrite L1, L4 by auto. cbv zeta.
      cbn [existsb]. destruct (zn (c_renum s) (zn (c_label s) p) =? b) eqn:Eb; auto.
      cbn [orb]. assert (existsb (Z.eqb target) rest = false) as ->; auto.
      apply existsb_eqb_false. intro; apply Hnt; simpl; auto.
Qed.

(** ** Assigning a label to one pixel *)

Definition nz (l : list Z) : Z := lenZ (filter (fun x => negb (x =? 0)) l).

Lemma nz_upd : forall l n v, (n < length l)%nat -> nth n l 0 = 0 -> v <> 0 ->
  nz (upd n v l) = nz l + 1.
Proof.
  unfold nz, lenZ. induction l; intros n v Hn H0 Hv; simpl in Hn; [lia|].
  destruct n; simpl in *.
  - subst a. simpl. destruct (v =? 0) eqn:E; [lia|]. simpl. lia.
  - specialize (IHl n v ltac:(lia) H0 Hv). destruct (a =? 0); simpl; lia.
Qed.

Lemma nz_lt : forall l n, (n < length l)%nat -> nth n l 0 = 0 -> nz l < lenZ l.
Proof.
  unfold nz, lenZ. induction l; intros n Hn H0; simpl in Hn; [lia|].
  destruct n; simpl in *.
  - subst a. simpl. pose proof (filter_le _ (fun x => negb (x =? 0)) l). unfold lenZ in H. lia.
  - specialize (IHl n ltac:(lia) H0). destruct (a =? 0); simpl; lia.
Qed.

Lemma set_label_ok : forall s idx v, 0 <= idx < lenZ (c_label s) ->
  set_label s idx v = Ok (mkst (upd (Z.to_nat idx) v (c_label s)) (c_new s) (c_nmerge s)
                               (c_renum s) (c_next s)).
Proof. intros. unfold set_label. rewrite vset_ok by auto. reflexivity. Qed.

Lemma inv_set_label : forall N s idx v, Inv N s -> 0 <= idx < N -> zn (c_label s) idx = 0 ->
  1 <= v < c_new s -> zn (c_renum s) v = v ->
  Inv N (mkst (upd (Z.to_nat idx) v (c_label s)) (c_new s) (c_nmerge s) (c_renum s) (c_next s)).
Proof.
  intros N s idx v HI Hi H0 Hv Rv. pose proof (iv_len _ _ HI) as Hl.
  assert (Z1 : forall p, 0 <= p < N -> zn (upd (Z.to_nat idx) v (c_label s)) p =
            if idx =? p then v else zn (c_label s) p) by (intros; apply zn_upd; lia).
  constructor; simpl; try apply HI.
  - now rewrite upd_lenZ.
  - fold (nz (upd (Z.to_nat idx) v (c_label s))). rewrite nz_upd; [|unfold lenZ in Hl; lia|exact H0|lia].
    pose proof (iv_cnt _ _ HI). unfold nz. lia.
  - intros p Hp. rewrite Z1 by auto. destruct (idx =? p); [lia|]. apply (iv_lab _ _ HI); auto.
  - intros r Hr Er. destruct (iv_chain _ _ HI r Hr Er) as (L & C & ND & LP & LX).
    exists L. repeat split; auto.
    + apply LP; auto.
    + apply LP; auto.
    + apply LP; auto.
    + intros p Hp Ep. rewrite Z1 in * by auto. destruct (idx =? p); [left; congruence|].
      apply (LX p); auto.
  - intros p Hp Hn. rewrite Z1 in * by auto. destruct (idx =? p).
    + rewrite Rv. auto.
    + apply (iv_root _ _ HI); auto.
  - intros r Hr Er. destruct (iv_wit _ _ HI r Hr Er) as (p & Hp & Ep).
    exists p. split; auto. rewrite Z1 by auto. destruct (idx =? p) eqn:E; auto.
    apply Z.eqb_eq in E; subst p. rewrite H0, (iv_r0 _ _ HI) in Ep. lia.
  - intros Hn. destruct (iv_nm0 _ _ HI Hn) as [A B]. split; auto.
    intros p Hp. rewrite Z1 by auto. destruct (idx =? p); auto.
Qed.

Lemma inv_new_label : forall N s idx, Inv N s -> 0 <= idx < N -> zn (c_label s) idx = 0 ->
  Inv N (mkst (upd (Z.to_nat idx) (c_new s) (c_label s)) (c_new s + 1) (c_nmerge s)
              (c_renum s) (c_next s)).
Proof.
  intros N s idx HI Hi H0. pose proof (iv_len _ _ HI) as Hl.
  pose proof (iv_new _ _ HI) as Hn1.
  assert (Hcap : c_new s <= N).
  { pose proof (iv_cnt _ _ HI). fold (nz (c_label s)) in H.
    assert (nz (c_label s) < lenZ (c_label s)).
    { apply nz_lt with (n := Z.to_nat idx); [unfold lenZ in Hl; lia|exact H0]. }
    lia. }
  destruct (iv_fresh _ _ HI (c_new s) ltac:(lia)) as [Fr Fn].
  assert (Z1 : forall p, 0 <= p < N -> zn (upd (Z.to_nat idx) (c_new s) (c_label s)) p =
            if idx =? p then c_new s else zn (c_label s) p) by (intros; apply zn_upd; lia).
  assert (Hlt : forall p, 0 <= p < N -> zn (c_renum s) (zn (c_label s) p) < c_new s).
  { intros p Hp. destruct (Z.eq_dec (zn (c_label s) p) 0) as [E|E].
    - rewrite E, (iv_r0 _ _ HI). lia.
    - apply (iv_root _ _ HI); auto. }
  constructor; simpl; try apply HI.
  - now rewrite upd_lenZ.
  - lia.
  - fold (nz (upd (Z.to_nat idx) (c_new s) (c_label s))).
    rewrite nz_upd; [|unfold lenZ in Hl; lia|exact H0|lia].
    pose proof (iv_cnt _ _ HI). unfold nz. lia.
  - intros p Hp. rewrite Z1 by auto. destruct (idx =? p); [lia|].
    pose proof (iv_lab _ _ HI p Hp); lia.
  - intros i Hii. apply (iv_fresh _ _ HI). lia.
  - intros r Hr Er. destruct (Z.eq_dec r (c_new s)) as [->|Hne].
    + exists []. repeat split; try (simpl in *; tauto).
      * constructor; auto.
      * constructor; [simpl; auto|constructor].
      * intros p Hp Ep. rewrite Z1 in * by auto. destruct (idx =? p) eqn:E; [left; auto|].
        pose proof (Hlt p Hp). lia.
    + destruct (iv_chain _ _ HI r ltac:(lia) Er) as (L & C & ND & LP & LX).
      exists L. repeat split; auto.
      * apply LP in H; lia.
      * apply LP in H; lia.
      * apply LP; auto.
      * intros p Hp Ep. rewrite Z1 in * by auto. destruct (idx =? p) eqn:E; [lia|].
        apply (LX p); auto.
  - intros p Hp Hn. rewrite Z1 in * by auto. destruct (idx =? p).
    + rewrite Fr. split; [lia|auto].
    + destruct (iv_root _ _ HI p Hp Hn). split; auto. lia.
  - intros r Hr Er. destruct (Z.eq_dec r (c_new s)) as [->|Hne].
    + exists idx. split; auto. rewrite Z1, Z.eqb_refl by auto. auto.
    + destruct (iv_wit _ _ HI r ltac:(lia) Er) as (p & Hp & Ep).
      exists p. split; auto. rewrite Z1 by auto. destruct (idx =? p) eqn:E; auto.
      apply Z.eqb_eq in E; subst p. rewrite H0, (iv_r0 _ _ HI) in Ep. lia.
  - intros Hn. destruct (iv_nm0 _ _ HI Hn) as [A B]. split; auto.
    intros p Hp. rewrite Z1 by auto. destruct (idx =? p); auto.
Qed.

(** ** Neighbour list and the abstract step *)

(** The pixels [label_impl] looks at, in order. *)
Definition nb (g : cfg) (idx : Z) : list Z :=
  flat_map (fun d => match get_compare g idx d with
                     | Ok c => if negb (g_per g) && (c =? -1) then [] else [c]
                     | _ => []
                     end) (g_dx g).

(** Every neighbour lookup succeeds. *)
Definition nb_ok (g : cfg) : Prop :=
  forall idx d, 0 <= idx < zprod (g_shape g) -> In d (g_dx g) ->
    exists c, get_compare g idx d = Ok c /\
      ((g_per g = false /\ c = -1) \/ 0 <= c < zprod (g_shape g)).

Lemma nb_range : forall g idx c, nb_ok g -> 0 <= idx < zprod (g_shape g) ->
  In c (nb g idx) -> 0 <= c < zprod (g_shape g).
Proof.
  intros g idx c Hok Hi Hc. unfold nb in Hc. apply in_flat_map in Hc.
  destruct Hc as (d & Hd & Hc). destruct (Hok idx d Hi Hd) as (c' & E & H).
  rewrite E in Hc. destruct H as [[H1 H2]|H].
  - rewrite H1, H2 in Hc. simpl in Hc. tauto.
  - destruct (negb (g_per g) && (c' =? -1)); simpl in Hc; [tauto|]. lia.
Qed.

(** Representatives of the labelled neighbours. *)
Definition near (nbs rp : list Z) : list Z :=
  filter (fun r => negb (r =? 0)) (map (zn rp) nbs).

Definition zmin (l : list Z) : Z :=
  match l with [] => 0 | x :: t => fold_right Z.min x t end.

(** Effect of labelling pixel [idx] on the representatives. *)
Definition a_rep (nbs rp : list Z) (new idx : Z) : list Z :=
  match near nbs rp with
  | [] => upd (Z.to_nat idx) new rp
  | _ => let m := zmin (near nbs rp) in
         upd (Z.to_nat idx) m
           (map (fun v => if existsb (Z.eqb v) (near nbs rp) then m else v) rp)
  end.

Definition a_new (nbs rp : list Z) (new : Z) : Z :=
  match near nbs rp with [] => new + 1 | _ => new end.

Definition a_nm (nbs rp : list Z) : Z :=
  match unique (near nbs rp) with [] | [_] => 0 | _ => 1 end.

Lemma connected_fold : forall g s idx N dx acc, Inv N s -> N = zprod (g_shape g) ->
  (forall d, In d dx -> exists c, get_compare g idx d = Ok c /\
      ((g_per g = false /\ c = -1) \/ 0 <= c < N)) ->
  foldM (fun acc d =>
           c <- get_compare g idx d ;;
           if negb (g_per g) && (c =? -1) then Ok acc
           else l <- vget (c_label s) c ;;
                if l =? 0 then Ok acc
                else r <- vget (c_renum s) l ;; Ok (acc ++ [r])) dx acc
  = Ok (acc ++ near (flat_map (fun d => match get_compare g idx d with
                     | Ok c => if negb (g_per g) && (c =? -1) then [] else [c]
                     | _ => []
                     end) dx) (rep s)).
Proof.
  intros g s idx N dx acc HI HN. revert acc. induction dx as [|d dx IH]; intros acc Hd.
  - simpl. now rewrite app_nil_r.
  - cbn [foldM flat_map]. destruct (Hd d (or_introl eq_refl)) as (c & E & H).
    rewrite E, bind_Ok.
    assert (Hd' : forall d0, In d0 dx -> exists c, get_compare g idx d0 = Ok c /\
      ((g_per g = false /\ c = -1) \/ 0 <= c < N)) by (intros; apply Hd; simpl; auto).
    destruct (negb (g_per g) && (c =? -1)) eqn:Eg.
    + rewrite bind_Ok. rewrite IH; auto.
    + assert (Hc : 0 <= c < N).
      { destruct H as [[H1 H2]|H]; auto. subst c. rewrite H1 in Eg. discriminate. }
      pose proof (iv_len _ _ HI) as Hl. pose proof (iv_lab _ _ HI c Hc) as Hlab.
      pose proof (inv_newN _ _ HI). pose proof (iv_rlen _ _ HI).
      rewrite vget_ok by lia. rewrite bind_Ok.
      unfold near. rewrite map_app, filter_app. cbn [map filter].
      rewrite rep_zn by lia.
      destruct (zn (c_label s) c =? 0) eqn:El.
      * apply Z.eqb_eq in El. rewrite El, (iv_r0 _ _ HI). simpl. apply IH; auto.
      * rewrite vget_ok by lia. rewrite !bind_Ok.
        destruct (iv_root _ _ HI c Hc ltac:(lia)) as [R1 R2].
        replace (zn (c_renum s) (zn (c_label s) c) =? 0) with false by lia.
        cbn [negb]. rewrite IH by auto. rewrite <- app_assoc. reflexivity.
Qed.

Lemma connected_of_ok : forall g s idx N, Inv N s -> N = zprod (g_shape g) -> nb_ok g ->
  0 <= idx < N -> connected_of g s idx = Ok (near (nb g idx) (rep s)).
Proof.
  intros. unfold connected_of. rewrite connected_fold with (N := N); auto.
  intros d Hd. subst N. apply H1; auto.
Qed.

Lemma near_In : forall nbs rp r, In r (near nbs rp) <-> r <> 0 /\ exists c, In c nbs /\ zn rp c = r.
Proof.
  intros. unfold near. rewrite filter_In, in_map_iff. split.
  - intros [(c & E & Hc) H]. split; [destruct (r =? 0) eqn:X; simpl in *; lia|]. exists c; auto.
  - intros [H (c & Hc & E)]. split; [exists c; auto|]. destruct (r =? 0) eqn:X; auto; lia.
Qed.

Lemma near_root : forall g s idx N r, Inv N s -> N = zprod (g_shape g) -> nb_ok g ->
  0 <= idx < N -> In r (near (nb g idx) (rep s)) ->
  1 <= r < c_new s /\ zn (c_renum s) r = r.
Proof.
  intros g s idx N r HI HN Hok Hi Hr. apply near_In in Hr. destruct Hr as (Hr & c & Hc & E).
  pose proof (nb_range g idx c Hok ltac:(lia) Hc) as Hcr.
  rewrite rep_zn in E by (rewrite (iv_len _ _ HI); lia).
  assert (zn (c_label s) c <> 0).
  { intro E0. rewrite E0, (iv_r0 _ _ HI) in E. lia. }
  destruct (iv_root _ _ HI c ltac:(lia) H) as [R1 R2]. rewrite E in *. auto.
Qed.

Lemma zmin_spec : forall l, l <> [] -> In (zmin l) l /\ forall x, In x l -> zmin l <= x.
Proof.
  destruct l as [|a l]; intros H; [congruence|]. clear H. cbn [zmin].
  induction l as [|b l [IH1 IH2]].
  - simpl. split; auto. intros x [->|[]]; lia.
  - cbn [fold_right]. split.
    + destruct (Z.min_spec b (fold_right Z.min a l)) as [[_ ->]|[_ ->]]; simpl; auto.
      destruct IH1; auto.
    + intros x [->|[->|Hx]].
      * specialize (IH2 x (or_introl eq_refl)). lia.
      * lia.
      * specialize (IH2 x (or_intror Hx)). lia.
Qed.

Lemma sorted_head_min : forall l x t, unique l = x :: t -> x = zmin l.
Proof.
  intros l x t E.
  assert (Hl : l <> []) by (intros ->; discriminate).
  destruct (zmin_spec l Hl) as [M1 M2].
  assert (Hx : In x l) by (apply unique_In; rewrite E; simpl; auto).
  apply unique_In in M1. rewrite E in M1.
  pose proof (unique_sorted l) as SS. rewrite E in SS. apply StronglySorted_inv in SS.
  destruct SS as [_ SS]. rewrite Forall_forall in SS.
  destruct M1 as [M1|M1]; auto. specialize (SS _ M1). specialize (M2 _ Hx). lia.
Qed.

Lemma map_if_id : forall m C rp, (forall x, In x C -> x = m) ->
  map (fun v => if existsb (Z.eqb v) C then m else v) rp = rp.
Proof.
  intros. rewrite <- (map_id rp) at 2. apply map_ext. intros v.
  destruct (existsb (Z.eqb v) C) eqn:E; auto. apply existsb_eqb in E. apply H in E. auto.
Qed.

Lemma rep_upd : forall s v n m,
  rep (mkst (upd n v (c_label s)) m (c_nmerge s) (c_renum s) (c_next s)) =
  upd n (zn (c_renum s) v) (rep s).
Proof.
  intros. unfold rep; simpl. generalize (c_label s). intros l. revert n.
  induction l; intros [|n]; simpl; auto. f_equal. apply IHl.
Qed.

(** The refinement of [label_impl]. *)
Lemma label_impl_ok : forall N g s idx, Inv N s -> N = zprod (g_shape g) -> nb_ok g ->
  0 <= idx < N -> zn (c_label s) idx = 0 ->
  exists s', label_impl g s idx = Ok s' /\ Inv N s' /\
    rep s' = a_rep (nb g idx) (rep s) (c_new s) idx /\
    c_new s' = a_new (nb g idx) (rep s) (c_new s) /\
    c_nmerge s' = c_nmerge s + a_nm (nb g idx) (rep s) /\
    (exists v, v <> 0 /\ c_label s' = upd (Z.to_nat idx) v (c_label s)).
Proof.
  intros N g s idx HI HN Hok Hi H0.
  unfold label_impl. rewrite connected_of_ok with (N := N) by auto. rewrite bind_Ok.
  pose proof (fun r => near_root g s idx N r HI HN Hok Hi) as HR.
  unfold a_rep, a_new, a_nm. remember (near (nb g idx) (rep s)) as C eqn:EC.
  pose proof (iv_len _ _ HI) as Hl. pose proof (iv_new _ _ HI) as Hnew.
  assert (Hcap : c_new s <= N).
  { pose proof (iv_cnt _ _ HI). fold (nz (c_label s)) in H.
    assert (nz (c_label s) < lenZ (c_label s)).
    { apply nz_lt with (n := Z.to_nat idx); [unfold lenZ in Hl; lia|exact H0]. }
    lia. }
  assert (Single : forall c, In c C -> (forall x, In x C -> x = c) -> 
     exists s', set_label s idx c = Ok s' /\ Inv N s' /\
      rep s' = upd (Z.to_nat idx) (zmin C)
           (map (fun v => if existsb (Z.eqb v) C then (zmin C) else v) (rep s)) /\
      c_new s' = c_new s /\ c_nmerge s' = c_nmerge s + 0 /\
      (exists v, v <> 0 /\ c_label s' = upd (Z.to_nat idx) v (c_label s))).
  { intros c Hc Huniq. destruct (HR c Hc) as [R1 R2].
    assert (Hm : zmin C = c). { apply Huniq. apply zmin_spec. intros E; rewrite E in Hc; simpl in Hc; auto. }
    rewrite set_label_ok by lia. eexists. split; [reflexivity|].
    split; [apply inv_set_label; auto|].
    split; [rewrite rep_upd; rewrite R2, Hm, map_if_id; auto|].
    split; [reflexivity|]. split; [simpl; lia|].
    exists c. split; auto. lia. }
  destruct C as [|c1 C'].
  - rewrite set_label_ok by lia. rewrite bind_Ok. eexists. split; [reflexivity|]. cbn [c_label c_nmerge c_renum c_next].
    split; [apply inv_new_label; auto|].
    destruct (iv_fresh _ _ HI (c_new s) ltac:(lia)) as [Fr _].
    split; [rewrite rep_upd; rewrite Fr; reflexivity|].
    split; [reflexivity|]. split; [simpl; lia|].
    exists (c_new s). split; auto. lia.
  - destruct C' as [|c2 C'].
    + destruct (Single c1) as (s' & E & P1 & P2 & P3 & P4 & P5).
      { simpl; auto. } { simpl; intros x [->|[]]; auto. }
      rewrite E. exists s'. split; [auto|]. split; [auto|]. split; [exact P2|]. split; [auto|].
      split; [|auto]. simpl. lia.
    + assert (Hu : forall x, In x (unique (c1 :: c2 :: C')) <-> In x (c1 :: c2 :: C'))
        by (intros; apply unique_In).
      cbv iota. remember (c1 :: c2 :: C') as C eqn:ECC.
      assert (HCne : C <> []) by (rewrite ECC; discriminate). clear ECC.
      destruct (unique C) as [|u1 [|u2 u]] eqn:EU.
      * exfalso. destruct C as [|x C0]; [congruence|].
        specialize (Hu x). simpl in Hu. tauto.
      * destruct (Single u1) as (s' & E & P1 & P2 & P3 & P4 & P5).
        { apply Hu; simpl; auto. } { intros x Hx; apply Hu in Hx. destruct Hx as [<-|[]]; auto. }
        rewrite E. exists s'. splits; auto.
      * pose proof (sorted_head_min _ _ _ EU) as Hm.
        pose proof (unique_NoDup C) as ND. rewrite EU in ND. apply NoDup_cons_iff in ND.
        destruct ND as [NI ND].
        assert (HU : forall x, In x (u1 :: u2 :: u) -> 1 <= x < c_new s /\ zn (c_renum s) x = x).
        { intros x Hx. apply HR. apply Hu. exact Hx. }
        destruct (HU u1 (or_introl eq_refl)) as [T1 T2].
        destruct (merge_fold_ok N u1 (u2 :: u) s (inv_inv1 _ _ HI) T1 T2 NI ND)
          as (s1 & E & I1 & L1 & L2 & L3 & L4 & L5).
        { intros b Hb. apply HU. simpl in *. tauto. }
        unfold merge. rewrite E. rewrite bind_Ok. rewrite bind_Ok.
        rewrite set_label_ok by (rewrite L1; lia). rewrite bind_Ok.
        cbn [c_label c_new c_nmerge c_renum c_next].
        eexists. split; [reflexivity|]. cbn [c_label c_new c_nmerge c_renum c_next].
        rewrite L1, L2, L3.
        pose proof (inv1_withnm N s1 (c_nmerge s + 1) ltac:(pose proof (iv_nm _ _ HI); lia) I1) as I2.
        pose proof (inv_set_label N (withnm s1 (c_nmerge s + 1)) idx u1 I2 Hi) as I3.
        simpl in I3. rewrite L1, L2 in I3.
        splits; auto.
        -- apply list_ext_zn.
           ++ unfold rep; simpl. rewrite upd_length, !map_length, !upd_length. reflexivity.
           ++ intros p Hp. unfold lenZ, rep in Hp; simpl in Hp. rewrite map_length, upd_length in Hp.
              fold (lenZ (c_label s)) in Hp. unfold lenZ in Hp. 
              assert (Hp' : 0 <= p < N) by (unfold lenZ in Hl; lia).
              unfold rep. simpl. rewrite zn_map by (rewrite upd_lenZ; lia).
              rewrite !zn_upd; try lia; [|unfold lenZ in *; rewrite !map_length; lia].
              destruct (idx =? p); [rewrite L4; auto|].
              rewrite L5 by auto. cbv zeta.
              rewrite zn_map by (unfold lenZ; rewrite map_length; lia).
              rewrite zn_map by lia.
              set (r := zn (c_renum s) (zn (c_label s) p)).
              destruct (existsb (Z.eqb r) C) eqn:Ex.
              ** apply existsb_eqb in Ex. apply Hu in Ex. destruct Ex as [Ex|Ex].
                 --- destruct (existsb (Z.eqb r) (u2 :: u)); congruence.
                 --- apply existsb_eqb in Ex. rewrite Ex. auto.
              ** apply existsb_eqb_false in Ex.
                 assert (existsb (Z.eqb r) (u2 :: u) = false) as ->; auto.
                 apply existsb_eqb_false. intro. apply Ex, Hu. simpl in *; tauto.
        -- exists u1. split; auto. lia.
Qed.
