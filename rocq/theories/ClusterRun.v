(** * ClusterRun: the public calls refine the abstract labelling (proofs only). *)

From Coq Require Import ZArith List Bool Lia Sorted Permutation.
From Verif Require Import Base BaseLemmas Cluster ClusterInv ClusterRefine ClusterGeom
  ClusterAbs SpecCluster.
Import ListNotations.
Open Scope Z_scope.

(** Quiescent state: between public calls. *)
Definition Q (N : Z) (s : st) : Prop := Inv N s /\ c_nmerge s = 0.

Lemma Q_rep : forall N s, Q N s -> rep s = c_label s.
Proof.
  intros N s [HI H0]. destruct (iv_nm0 _ _ HI H0) as [_ H].
  apply list_ext_zn; [unfold rep; now rewrite map_length|].
  intros i Hi. rewrite rep_len in Hi. rewrite rep_zn by auto. apply H.
  rewrite (iv_len _ _ HI) in Hi. auto.
Qed.

Lemma rep_zero_iff : forall N s p, Inv N s -> 0 <= p < N ->
  (zn (rep s) p = 0 <-> zn (c_label s) p = 0).
Proof.
  intros N s p HI Hp. rewrite rep_zn by (rewrite (iv_len _ _ HI); auto). split; intros H.
  - destruct (Z.eq_dec (zn (c_label s) p) 0); auto.
    destruct (iv_root _ _ HI p Hp n). lia.
  - rewrite H. apply (iv_r0 _ _ HI).
Qed.

Lemma Inv_AI : forall N s, Inv N s -> AI N (rep s, c_new s).
Proof.
  intros N s HI. constructor; cbn [fst snd].
  - rewrite rep_len. apply (iv_len _ _ HI).
  - apply (iv_new _ _ HI).
  - intros q Hq. rewrite rep_zn by (rewrite (iv_len _ _ HI); auto).
    destruct (Z.eq_dec (zn (c_label s) q) 0) as [E|E].
    + rewrite E, (iv_r0 _ _ HI). pose proof (iv_new _ _ HI). lia.
    + destruct (iv_root _ _ HI q Hq E). lia.
Qed.

(** One pixel of an add loop. *)
Lemma point_ok : forall N g s p, Inv N s -> N = zprod (g_shape g) -> nb_ok g -> 0 <= p < N ->
  exists s', (l <- vget (c_label s) p ;; if negb (l =? 0) then Ok s else label_impl g s p) = Ok s' /\
    Inv N s' /\ (rep s', c_new s') = apoint g (rep s, c_new s) p.
Proof.
  intros N g s p HI HN Hok Hp. rewrite vget_ok by (rewrite (iv_len _ _ HI); auto).
  rewrite bind_Ok. unfold apoint; cbn [fst snd].
  pose proof (rep_zero_iff N s p HI Hp) as HZ.
  destruct (zn (c_label s) p =? 0) eqn:E; cbn [negb].
  - replace (zn (rep s) p =? 0) with true by lia.
    destruct (label_impl_ok N g s p HI HN Hok Hp ltac:(lia)) as (s' & E1 & E2 & E3 & E4 & _).
    exists s'. split; auto. split; auto. congruence.
  - replace (zn (rep s) p =? 0) with false by lia. eauto.
Qed.

Lemma points_loop_ok : forall N g l s, Inv N s -> N = zprod (g_shape g) -> nb_ok g ->
  (forall p, In p l -> 0 <= p < N) ->
  exists s', foldM (fun s i => l <- vget (c_label s) i ;;
                               if negb (l =? 0) then Ok s else label_impl g s i) l s = Ok s' /\
    Inv N s' /\ (rep s', c_new s') = apoints g l (rep s, c_new s).
Proof.
  intros N g l. induction l as [|p l IH]; intros s HI HN Hok Hl.
  - simpl. eauto.
  - destruct (point_ok N g s p HI HN Hok (Hl p (or_introl eq_refl))) as (s1 & E1 & I1 & R1).
    cbn [foldM]. rewrite E1, bind_Ok.
    destruct (IH s1 I1 HN Hok) as (s' & E & I & R); [intros; apply Hl; simpl; auto|].
    exists s'. split; auto. split; auto. cbn [apoints fold_left]. rewrite <- R1. exact R.
Qed.

(** The image loop visits the non-zero pixels in row-major order. *)
Definition image_points (img : list Z) : list Z :=
  filter (fun i => negb (zn img i =? 0)) (zseq 0 (length img)).

Lemma image_points_In : forall img p, In p (image_points img) <->
  0 <= p < lenZ img /\ zn img p <> 0.
Proof.
  intros. unfold image_points, lenZ. rewrite filter_In, zseq_In.
  destruct (zn img p =? 0) eqn:E; simpl; intuition (try lia; try discriminate).
Qed.

Lemma zseq_ssorted : forall n a, StronglySorted Z.lt (zseq a n).
Proof.
  induction n; intros; simpl; constructor; auto.
  apply Forall_forall. intros x Hx. apply zseq_In in Hx. lia.
Qed.

Lemma filter_ssorted : forall f l, StronglySorted Z.lt l -> StronglySorted Z.lt (filter f l).
Proof.
  induction 1; simpl; [constructor|]. destruct (f a); auto. constructor; auto.
  rewrite Forall_forall in *. intros x Hx. apply filter_In in Hx. apply H0. tauto.
Qed.

Lemma image_points_sorted : forall img, StronglySorted Z.lt (image_points img).
Proof. intros; apply filter_ssorted, zseq_ssorted. Qed.

Lemma image_loop_ok : forall N g img l s, Inv N s -> N = zprod (g_shape g) -> nb_ok g ->
  lenZ img = N -> (forall p, In p l -> 0 <= p < N) ->
  exists s', foldM (fun s idx =>
                 v <- vget img idx ;;
                 if v =? 0 then Ok s
                 else l <- vget (c_label s) idx ;;
                      if negb (l =? 0) then Ok s else label_impl g s idx) l s = Ok s' /\
    Inv N s' /\ (rep s', c_new s') = apoints g (filter (fun i => negb (zn img i =? 0)) l) (rep s, c_new s).
Proof.
  intros N g img l. induction l as [|p l IH]; intros s HI HN Hok Himg Hl.
  - simpl. eauto.
  - assert (Hp : 0 <= p < N) by (apply Hl; simpl; auto).
    cbn [foldM filter]. rewrite vget_ok by lia. rewrite bind_Ok.
    destruct (zn img p =? 0) eqn:E; cbn [negb].
    + rewrite bind_Ok. apply IH; auto. intros; apply Hl; simpl; auto.
    + destruct (point_ok N g s p HI HN Hok Hp) as (s1 & E1 & I1 & R1).
      rewrite E1, bind_Ok.
      destruct (IH s1 I1 HN Hok Himg) as (s' & E' & I & R); [intros; apply Hl; simpl; auto|].
      exists s'. split; auto. split; auto. cbn [apoints fold_left]. rewrite <- R1. exact R.
Qed.

Lemma apply_merge_ok : forall N s, Inv N s ->
  exists s', apply_merge s = Ok s' /\ Q N s' /\ c_label s' = rep s /\ c_new s' = c_new s.
Proof.
  intros N s HI. unfold apply_merge. destruct (c_nmerge s =? 0) eqn:E.
  - exists s. assert (Q N s) by (split; auto; lia). split; auto. split; auto.
    split; auto. symmetry. eapply Q_rep; eauto.
  - pose proof (inv_newN _ _ HI) as HnN. pose proof (iv_rlen _ _ HI) as Hrl.
    pose proof (iv_len _ _ HI) as Hl. pose proof (iv_nlen _ _ HI) as Hnl.
    unfold private_renumber. rewrite mapM_vget_ok.
    2:{ intros x Hx. apply In_zn in Hx. destruct Hx as (i & Hi & <-).
        pose proof (iv_lab _ _ HI i ltac:(lia)). lia. }
    rewrite bind_Ok. eexists. split; [reflexivity|]. cbn [c_label c_new].
    change (map (zn (c_renum s)) (c_label s)) with (rep s).
    split; [|auto].
    assert (Hz : forall p, 0 <= p < N -> zn (rep s) p = zn (c_renum s) (zn (c_label s) p)).
    { intros; apply rep_zn; lia. }
    assert (Hroot : forall p, 0 <= p < N -> zn (c_renum s) (zn (rep s) p) = zn (rep s) p).
    { intros p Hp. rewrite Hz by auto. destruct (Z.eq_dec (zn (c_label s) p) 0) as [E0|E0].
      - rewrite E0, !(iv_r0 _ _ HI). auto.
      - apply (iv_root _ _ HI); auto. }
    assert (Hnx : forall i, 0 <= i <= N -> zn (repeat (-1) (length (c_next s))) i = -1).
    { intros i Hi. apply zn_repeat. unfold lenZ in Hnl. lia. }
    pose proof (Inv_AI _ _ HI) as HA.
    split; [|reflexivity].
    constructor; cbn [c_label c_new c_nmerge c_renum c_next]; auto; try lia; try apply HI.
    + rewrite rep_len; auto.
    + rewrite repeat_lenZ. exact Hnl.
    + pose proof (iv_cnt _ _ HI) as Hc.
      assert (lenZ (filter (fun l => negb (l =? 0)) (rep s)) = lenZ (filter (fun l => negb (l =? 0)) (c_label s))).
      { unfold rep. assert (HH : forall x, In x (c_label s) -> (zn (c_renum s) x =? 0) = (x =? 0)).
        { intros x Hx. apply In_zn in Hx. destruct Hx as (i & Hi & <-).
          destruct (zn (c_label s) i =? 0) eqn:E0.
          - assert (zn (c_label s) i = 0) as -> by lia. rewrite (iv_r0 _ _ HI). auto.
          - destruct (iv_root _ _ HI i ltac:(lia) ltac:(lia)). lia. }
        clear - HH. induction (c_label s); simpl; auto.
        rewrite HH by (simpl; auto). unfold lenZ in *. destruct (a =? 0); simpl;
        [apply IHl; intros; apply HH; simpl; auto|].
        specialize (IHl ltac:(intros; apply HH; simpl; auto)). lia. }
      lia.
    + apply (ai_rng _ _ HA).
    + intros i Hi. split; [apply (iv_fresh _ _ HI); auto|]. apply Hnx.
      pose proof (iv_new _ _ HI). lia.
    + intros r Hr Er. exists []. split; [constructor; apply Hnx; lia|].
      split; [constructor; [simpl; auto|constructor]|]. split; [simpl; tauto|].
      intros p Hp Ep. left. rewrite Hroot in Ep; auto.
    + intros p Hp Hn. rewrite !Hroot by auto.
      pose proof (ai_rng _ _ HA p Hp). cbn [fst snd] in H. split; [lia|auto].
    + intros r Hr Er. destruct (iv_wit _ _ HI r Hr Er) as (p & Hp & Ep).
      exists p. split; auto. rewrite Hroot, Hz by auto. auto.
Qed.

(** ** add_image, add_points *)

Lemma eqbl_refl : forall l, eqbl l l = true.
Proof. induction l; simpl; auto. rewrite Z.eqb_refl, IHl. auto. Qed.

Lemma eqbl_eq : forall a b, eqbl a b = true <-> a = b.
Proof.
  split.
  - revert b. induction a as [|x a IH]; intros [|y b]; simpl; try discriminate; auto.
    intros H. apply andb_prop in H. destruct H as [H1 H2]. f_equal; [lia|auto].
  - intros ->. apply eqbl_refl.
Qed.

Lemma add_image_ok : forall asrt g s img, wf g -> Q (zprod (g_shape g)) s ->
  lenZ img = zprod (g_shape g) ->
  exists s', add_image asrt g s (g_shape g) img = Ok s' /\ Q (zprod (g_shape g)) s' /\
    (c_label s', c_new s') = apoints g (image_points img) (c_label s, c_new s).
Proof.
  intros asrt g s img Hwf HQ Himg. pose proof (wf_nb_ok g Hwf) as Hok.
  unfold add_image. rewrite eqbl_refl.
  replace (assertb asrt true) with (Ok tt) by (destruct asrt; auto). rewrite bind_Ok.
  destruct HQ as [HI H0].
  destruct (image_loop_ok _ g img (zseq 0 (length img)) s HI eq_refl Hok Himg) as (s1 & E1 & I1 & R1).
  { intros p Hp. apply zseq_In in Hp. unfold lenZ in Himg. lia. }
  rewrite E1, bind_Ok. destruct (apply_merge_ok _ _ I1) as (s' & E & HQ' & L & Nw).
  exists s'. split; auto. split; auto. rewrite L, Nw, R1.
  rewrite (Q_rep _ s (conj HI H0)). reflexivity.
Qed.

Lemma legal_points_true : forall N s l, Inv N s -> N < big -> (forall p, In p l -> 0 <= p < N) ->
  legal_points s l = true.
Proof.
  intros N s l HI HB Hl. unfold legal_points. apply forallb_forall. intros p Hp.
  specialize (Hl p Hp). unfold u64. rewrite Z.mod_small by (unfold two64, big in *; lia).
  rewrite (iv_len _ _ HI). lia.
Qed.

Lemma legal_points_inv : forall N s l, Inv N s -> N < big -> legal_points s l = true ->
  forall p, In p l -> - two63 <= p < two64 -> 0 <= p < N.
Proof.
  intros N s l HI HB H p Hp Hr. unfold legal_points in H. rewrite forallb_forall in H.
  specialize (H p Hp). rewrite (iv_len _ _ HI) in H.
  destruct (Z_lt_le_dec p 0).
  - unfold u64 in H. replace (p mod two64) with (p + two64) in H.
    + unfold two63, two64, big in *. lia.
    + rewrite <- (Z.mod_add p 1) by (unfold two64; lia). rewrite Z.mod_small; unfold two63, two64, big in *; lia.
  - unfold u64 in H. rewrite Z.mod_small in H by (unfold two63, two64, big in *; lia). lia.
Qed.

Lemma add_points_ok : forall asrt g s l, wf g -> Q (zprod (g_shape g)) s ->
  (forall p, In p l -> 0 <= p < zprod (g_shape g)) ->
  exists s', add_points asrt g s l = Ok s' /\ Q (zprod (g_shape g)) s' /\
    (c_label s', c_new s') = apoints g l (c_label s, c_new s).
Proof.
  intros asrt g s l Hwf HQ Hl. pose proof (wf_nb_ok g Hwf) as Hok. pose proof (zprod_big g Hwf) as HB.
  unfold add_points. destruct HQ as [HI H0].
  rewrite (legal_points_true _ _ _ HI HB Hl).
  replace (assertb asrt true) with (Ok tt) by (destruct asrt; auto). rewrite bind_Ok.
  destruct (points_loop_ok _ g l s HI eq_refl Hok Hl) as (s1 & E1 & I1 & R1).
  rewrite E1, bind_Ok. destruct (apply_merge_ok _ _ I1) as (s' & E & HQ' & L & Nw).
  exists s'. split; auto. split; auto. rewrite L, Nw, R1.
  rewrite (Q_rep _ s (conj HI H0)). reflexivity.
Qed.

(** ** add_sequence *)

(** [event g a p]: labelling [p] in abstract state [a] starts a cluster or merges some. *)
Definition event (g : cfg) (a : list Z * Z) (p : Z) : bool :=
  (zn (fst a) p =? 0) &&
  match unique (near (nb g p) (fst a)) with [_] => false | _ => true end.

Lemma event_cases : forall nbs rp new, 
  (match unique (near nbs rp) with [_] => false | _ => true end) =
  negb (a_new nbs rp new =? new) || negb (a_nm nbs rp =? 0).
Proof.
  intros. unfold a_new, a_nm. destruct (near nbs rp) as [|c C] eqn:E.
  - simpl. replace (new + 1 =? new) with false by lia. reflexivity.
  - rewrite Z.eqb_refl. cbn [negb orb].
    destruct (unique (c :: C)) as [|u [|v u']] eqn:EU; auto.
    exfalso. pose proof (proj2 (unique_In c (c :: C)) (or_introl eq_refl)). rewrite EU in H. auto.
Qed.

(** Positions (starting at [i]) of the events along a list. *)
Fixpoint events (g : cfg) (a : list Z * Z) (i : Z) (l : list Z) : list Z :=
  match l with
  | [] => []
  | p :: l' => (if event g a p then [i] else []) ++ events g (apoint g a p) (i + 1) l'
  end.

(** Specification of the inner loop: it consumes a prefix of [rest]. *)
Lemma seq_inner_ok : forall N g rest s nl nm lab i,
  Inv N s -> N = zprod (g_shape g) -> nb_ok g -> (forall p, In p rest -> 0 <= p < N) ->
  c_new s = nl -> c_nmerge s = nm ->
  exists s' k pushed pre post, seq_inner g s nl nm lab i rest = Ok (s', i + lenZ pre, pushed) /\
    k = lenZ pre /\ rest = pre ++ post /\ Inv N s' /\
    (pushed = false -> post = [] /\ (rep s', c_new s') = apoints g pre (rep s, c_new s) /\
        events g (rep s, c_new s) i pre = []) /\
    (pushed = true -> exists p post', post = p :: post' /\ zn (c_label s') p <> 0 /\
        (rep s', c_new s') = apoints g (pre ++ [p]) (rep s, c_new s) /\
        events g (rep s, c_new s) i pre = [] /\
        (zn (c_label s) p = lab -> lab <> 0 -> pre <> []) /\
        (event g (apoints g pre (rep s, c_new s)) p = true \/
         zn (fst (apoints g pre (rep s, c_new s))) p <> 0)).
Proof.
  intros N g rest. induction rest as [|p rest IH]; intros s nl nm lab i HI HN Hok Hl Hnl Hnm.
  - simpl. exists s, 0, false, [], []. simpl. rewrite Z.add_0_r.
    split; [auto|]. split; [auto|]. split; [auto|]. split; [auto|]. split; [auto|]. discriminate.
  - assert (Hp : 0 <= p < N) by (apply Hl; simpl; auto).
    assert (Hl' : forall q, In q rest -> 0 <= q < N) by (intros; apply Hl; simpl; auto).
    cbn [seq_inner]. rewrite vget_ok by (rewrite (iv_len _ _ HI); auto). rewrite bind_Ok.
    set (l := zn (c_label s) p) in *.
    pose proof (rep_zero_iff N s p HI Hp) as HZ.
    destruct (negb (l =? lab) && negb (l =? 0)) eqn:E1.
    + (* labelled, other label: pushed *)
      exists s, 0, true, [], (p :: rest). simpl. rewrite Z.add_0_r.
      split; [auto|]. split; [auto|]. split; [auto|]. split; [auto|]. split; [discriminate|].
      intros _. exists p, rest. split; [auto|]. split; [unfold l in *; lia|].
      split; [|split; [auto|split; [unfold l in *; lia|right; cbn [fst]; unfold l in *; lia]]].
      unfold apoint; cbn [fst snd]. replace (zn (rep s) p =? 0) with false by (unfold l in *; lia). auto.
    + destruct (negb (l =? 0)) eqn:E2.
      * (* labelled, same label: continue *)
        destruct (IH s nl nm lab (i + 1) HI HN Hok Hl' Hnl Hnm)
          as (s' & k & pushed & pre & post & R1 & R2 & R3 & R4 & R5 & R6).
        assert (Hap : apoint g (rep s, c_new s) p = (rep s, c_new s)).
        { unfold apoint; cbn [fst snd]. replace (zn (rep s) p =? 0) with false by (unfold l in *; lia). auto. }
        assert (Hev : event g (rep s, c_new s) p = false).
        { unfold event; cbn [fst snd]. replace (zn (rep s) p =? 0) with false by (unfold l in *; lia). auto. }
        exists s', (1 + k), pushed, (p :: pre), post. rewrite lenZ_cons.
        split; [rewrite R1; do 3 f_equal; lia|]. split; [lia|]. split; [rewrite R3; auto|]. split; [auto|].
        split.
        -- intros Hpu. destruct (R5 Hpu) as (S1 & S2 & S3). split; auto. 
           cbn [apoints fold_left events]. rewrite Hap, Hev. auto.
        -- intros Hpu. destruct (R6 Hpu) as (q & post' & S1 & S2 & S3 & S4 & S5 & S6).
           exists q, post'. split; auto. split; auto. cbn [app apoints fold_left events]. rewrite Hap, Hev.
           split; [auto|]. split; [auto|]. split; [discriminate|exact S6].
      * (* unlabelled *)
        assert (Hl0 : zn (c_label s) p = 0) by (unfold l in *; lia).
        destruct (label_impl_ok N g s p HI HN Hok Hp Hl0) as (s1 & F1 & F2 & F3 & F4 & F5 & v & Hv & F6).
        rewrite F1, bind_Ok.
        assert (Hap : apoint g (rep s, c_new s) p = (rep s1, c_new s1)).
        { unfold apoint; cbn [fst snd]. replace (zn (rep s) p =? 0) with true by lia. congruence. }
        assert (Hev : event g (rep s, c_new s) p = negb (c_new s1 =? nl) || negb (c_nmerge s1 =? nm)).
        { unfold event; cbn [fst snd]. replace (zn (rep s) p =? 0) with true by lia.
          rewrite andb_true_l. rewrite (event_cases _ _ (c_new s)). rewrite <- F4, Hnl.
          f_equal. rewrite F5, Hnm. f_equal. 
          destruct (a_nm (nb g p) (rep s) =? 0) eqn:X; lia. }
        destruct (negb (c_new s1 =? nl) || negb (c_nmerge s1 =? nm)) eqn:E3.
        -- exists s1, 0, true, [], (p :: rest). simpl. rewrite Z.add_0_r.
           split; [auto|]. split; [auto|]. split; [auto|]. split; [auto|]. split; [discriminate|].
           intros _. exists p, rest. split; [auto|].
           split; [rewrite F6, zn_upd, Z.eqb_refl by (rewrite ?(iv_len _ _ HI); lia); auto|].
           split; [auto|]. split; [auto|]. split; [fold l; lia|]. left. cbn [apoints fold_left]. exact Hev.
        -- destruct (IH s1 nl nm lab (i + 1) F2 HN Hok Hl')
             as (s' & k & pushed & pre & post & R1 & R2 & R3 & R4 & R5 & R6); try lia.
           exists s', (1 + k), pushed, (p :: pre), post. rewrite lenZ_cons.
           split; [rewrite R1; do 3 f_equal; lia|]. split; [lia|]. split; [rewrite R3; auto|]. split; [auto|].
           split.
           ++ intros Hpu. destruct (R5 Hpu) as (S1 & S2 & S3). split; auto. 
              cbn [apoints fold_left events]. rewrite Hap, Hev. auto.
           ++ intros Hpu. destruct (R6 Hpu) as (q & post' & S1 & S2 & S3 & S4 & S5 & S6).
              exists q, post'. split; auto. split; auto. cbn [app apoints fold_left events]. rewrite Hap, Hev.
              split; [auto|]. split; [auto|]. split; [discriminate|exact S6].
Qed.

Lemma apoints_app : forall g l1 l2 a, apoints g (l1 ++ l2) a = apoints g l2 (apoints g l1 a).
Proof. intros. unfold apoints. apply fold_left_app. Qed.

Lemma events_app : forall g l1 l2 a i,
  events g a i (l1 ++ l2) = events g a i l1 ++ events g (apoints g l1 a) (i + lenZ l1) l2.
Proof.
  induction l1 as [|p l1 IH]; intros; cbn [app events].
  - unfold lenZ; cbn [length apoints fold_left app]. rewrite Z.add_0_r. reflexivity.
  - rewrite IH, lenZ_cons, app_assoc. do 2 f_equal. lia.
Qed.

Lemma events_range : forall g l a i x, In x (events g a i l) -> i <= x < i + lenZ l.
Proof.
  induction l as [|p l IH]; intros a i x H; cbn [events] in H; [simpl in H; tauto|].
  rewrite lenZ_cons. apply in_app_or in H. destruct H as [H|H].
  - destruct (event g a p); simpl in H; [|tauto]. pose proof (lenZ_nonneg _ l). lia.
  - apply IH in H. lia.
Qed.

Lemma skipn_lenZ : forall A (a b : list A), skipn (Z.to_nat (lenZ a)) (a ++ b) = b.
Proof.
  intros. unfold lenZ. rewrite Nat2Z.id. rewrite skipn_app, skipn_all, Nat.sub_diag. reflexivity.
Qed.

Lemma seq_outer_ok : forall N g idx, N = zprod (g_shape g) -> nb_ok g ->
  (forall p, In p idx -> 0 <= p < N) ->
  forall fuel s done p todo ret, Inv N s -> idx = done ++ p :: todo ->
  (length todo + (if (zn (c_label s) p =? 0)%Z then 2 else 1) <= fuel)%nat ->
  exists s' ret', seq_outer fuel g s idx (lenZ done) ret = Ok (s', ret ++ ret') /\
    Inv N s' /\ (rep s', c_new s') = apoints g (p :: todo) (rep s, c_new s) /\
    StronglySorted Z.lt ret' /\
    (forall x, In x ret' -> lenZ done <= x < lenZ idx /\ (zn (c_label s) p <> 0 -> lenZ done < x)) /\
    (forall x, In x (events g (rep s, c_new s) (lenZ done) (p :: todo)) -> In x ret') /\
    (forall x, In x ret' -> In x (events g (rep s, c_new s) (lenZ done) (p :: todo)) \/
       zn (fst (apoints g (firstn (Z.to_nat (x - lenZ done)) (p :: todo)) (rep s, c_new s))) (zn idx x) <> 0).
Proof.
  intros N g idx HN Hok Hl. induction fuel as [|fuel IH]; intros s done p todo ret HI Hidx Hf.
  - destruct (zn (c_label s) p =? 0); lia.
  - cbn [seq_outer].
    assert (Hlen : lenZ idx = lenZ done + 1 + lenZ todo).
    { rewrite Hidx, lenZ_app, lenZ_cons. lia. }
    pose proof (lenZ_nonneg _ done). pose proof (lenZ_nonneg _ todo).
    assert (Hpin : In p idx) by (rewrite Hidx; apply in_or_app; simpl; auto).
    assert (Hp : 0 <= p < N) by auto.
    assert (Hget : vget idx (lenZ done) = Ok p).
    { rewrite vget_ok by lia. rewrite Hidx, zn_app_r, Z.sub_diag by lia. reflexivity. }
    rewrite Hget, bind_Ok. rewrite vget_ok by (rewrite (iv_len _ _ HI); auto). rewrite bind_Ok.
    replace (skipn (Z.to_nat (lenZ done)) idx) with (p :: todo) by (rewrite Hidx; symmetry; apply skipn_lenZ).
    destruct (seq_inner_ok N g (p :: todo) s (c_new s) (c_nmerge s) (zn (c_label s) p) (lenZ done))
      as (s1 & k & pushed & pre & post & E & Hk & Hsplit & I1 & HF & HT); auto.
    { intros q Hq. apply Hl. rewrite Hidx. apply in_or_app. auto. }
    rewrite E, bind_Ok.
    destruct pushed.
    + destruct (HT eq_refl) as (q & post' & -> & Hlq & R1 & Ev & Hne & Why). clear HF HT.
      assert (Hidx' : idx = (done ++ pre) ++ q :: post').
      { rewrite Hidx, Hsplit, app_assoc. reflexivity. }
      assert (Hlp : (length pre + length post' = length todo)%nat).
      { apply (f_equal (@length Z)) in Hsplit. rewrite app_length in Hsplit. simpl in Hsplit. lia. }
      assert (Hlt : lenZ done + lenZ pre < lenZ idx).
      { rewrite Hidx', lenZ_app, lenZ_cons, lenZ_app. pose proof (lenZ_nonneg _ post'). lia. }
      replace (lenZ done + lenZ pre =? lenZ idx) with false by lia.
      replace (lenZ done + lenZ pre) with (lenZ (done ++ pre)) by (rewrite lenZ_app; auto).
      destruct (IH s1 (done ++ pre) q post' (ret ++ [lenZ (done ++ pre)]) I1 Hidx')
        as (s' & ret' & E' & I' & R' & SS & Hret & Hev & Hwhy).
      { replace (zn (c_label s1) q =? 0) with false by lia.
        destruct (zn (c_label s) p =? 0) eqn:Ez; [lia|].
        assert (pre <> []).
        { destruct pre as [|x pre']; [|discriminate]. exfalso.
          apply Hne; auto; try lia. cbn [app] in Hsplit. congruence. }
        destruct pre; [congruence|]. simpl in Hlp. lia. }
      exists s', (lenZ (done ++ pre) :: ret'). split; [rewrite E', <- app_assoc; auto|].
      split; [auto|].
      assert (Hq0 : zn (rep s1) q <> 0).
      { assert (0 <= q < N). { apply Hl. rewrite Hidx'. apply in_or_app; simpl; auto. }
        rewrite (rep_zero_iff N s1 q I1); auto. }
      assert (Hap : apoint g (rep s1, c_new s1) q = (rep s1, c_new s1)).
      { unfold apoint; cbn [fst snd]. replace (zn (rep s1) q =? 0) with false by lia. auto. }
      split.
      { rewrite R'. cbn [apoints fold_left]. rewrite Hap. fold (apoints g post' (rep s1, c_new s1)).
        rewrite R1. change (fold_left (apoint g) todo (apoint g (rep s, c_new s) p)) with
          (apoints g (p :: todo) (rep s, c_new s)). rewrite Hsplit.
        rewrite <- apoints_app, <- app_assoc. reflexivity. }
      split.
      { constructor; auto. apply Forall_forall. intros x Hx. destruct (Hret x Hx) as [_ Hx']. auto. }
      split.
      { intros x [<-|Hx].
        - rewrite lenZ_app. pose proof (lenZ_nonneg _ pre). split; [lia|]. intros Hnz.
          assert (pre <> []).
          { destruct pre as [|x pre']; [|discriminate]. exfalso.
            apply Hne; auto; try lia. cbn [app] in Hsplit. congruence. }
          destruct pre; [congruence|]. rewrite lenZ_cons. pose proof (lenZ_nonneg _ pre). lia.
        - destruct (Hret x Hx) as [Hx1 Hx2]. specialize (Hx2 Hlq). rewrite lenZ_app in Hx1, Hx2.
          pose proof (lenZ_nonneg _ pre). split; lia. }
      assert (Hev1 : event g (rep s1, c_new s1) q = false).
      { unfold event; cbn [fst snd]. replace (zn (rep s1) q =? 0) with false by lia. auto. }
      split.
      { intros x Hx. rewrite Hsplit, events_app, Ev in Hx. cbn [app events] in Hx.
        rewrite lenZ_app. apply in_app_or in Hx. destruct Hx as [Hx|Hx].
        - destruct (event g _ q); simpl in Hx; [|tauto]. left. lia.
        - right. apply Hev. cbn [events]. rewrite Hap, Hev1.
          cbn [app]. rewrite R1, apoints_app, lenZ_app. exact Hx. }
      { rewrite Hsplit. intros x [<-|Hx].
        - replace (lenZ (done ++ pre) - lenZ done) with (lenZ pre) by (rewrite lenZ_app; lia).
          replace (Z.to_nat (lenZ pre)) with (length pre) by (unfold lenZ; lia). rewrite firstn_app, firstn_all, Nat.sub_diag. cbn [firstn]. rewrite app_nil_r.
          replace (zn idx (lenZ (done ++ pre))) with q by (rewrite Hidx', zn_app_r, Z.sub_diag by lia; reflexivity).
          destruct Why as [Why|Why]; [left|right; exact Why].
          rewrite events_app, Ev. cbn [app events]. rewrite Why, lenZ_app. simpl. auto.
        - destruct (Hret x Hx) as [Hx1 Hx2]. specialize (Hx2 Hlq).
          destruct (Hwhy x Hx) as [W|W].
          + left. rewrite events_app, Ev. cbn [app events]. apply in_or_app. right.
            cbn [events] in W. rewrite Hap, Hev1 in W. cbn [app] in W. rewrite R1, apoints_app, lenZ_app in W. exact W.
          + right. rewrite lenZ_app in Hx2, W. rewrite firstn_app.
            rewrite (firstn_all2 pre) by (unfold lenZ in *; lia).
            replace (Z.to_nat (x - lenZ done) - length pre)%nat with (S (Z.to_nat (x - (lenZ done + lenZ pre) - 1))) by (unfold lenZ in *; lia).
            replace (Z.to_nat (x - (lenZ done + lenZ pre))) with (S (Z.to_nat (x - (lenZ done + lenZ pre) - 1))) in W by lia.
            rewrite firstn_cons in *. rewrite apoints_app. cbn [apoints fold_left] in W. rewrite Hap in W.
            cbn [apoints fold_left]. rewrite R1, apoints_app in W. exact W. }
    + destruct (HF eq_refl) as (-> & R1 & Ev). rewrite app_nil_r in Hsplit. subst pre.
      rewrite lenZ_cons. replace (lenZ done + (1 + lenZ todo) =? lenZ idx) with true by lia.
      exists s1, []. rewrite app_nil_r. split; auto. split; auto. split; auto.
      split; [constructor|]. split; [simpl; tauto|]. split; [intros x Hx; rewrite Ev in Hx; auto|simpl; tauto].
Qed.

Lemma add_sequence_ok : forall asrt g s l, wf g -> Q (zprod (g_shape g)) s ->
  (forall p, In p l -> 0 <= p < zprod (g_shape g)) -> l <> [] ->
  exists s' ret, add_sequence asrt g s l = Ok (s', ret ++ [lenZ l]) /\ Q (zprod (g_shape g)) s' /\
    (c_label s', c_new s') = apoints g l (c_label s, c_new s) /\
    StronglySorted Z.lt ret /\ (forall x, In x ret -> 0 <= x < lenZ l) /\
    (forall x, In x (events g (c_label s, c_new s) 0 l) -> In x ret) /\
    (forall x, In x ret -> In x (events g (c_label s, c_new s) 0 l) \/
       zn (fst (apoints g (firstn (Z.to_nat x) l) (c_label s, c_new s))) (zn l x) <> 0).
Proof.
  intros asrt g s l Hwf HQ Hl Hne. pose proof (wf_nb_ok g Hwf) as Hok. pose proof (zprod_big g Hwf) as HB.
  unfold add_sequence. destruct HQ as [HI H0].
  destruct l as [|p todo]; [congruence|].
  replace (1 <=? lenZ (p :: todo)) with true by (rewrite lenZ_cons; pose proof (lenZ_nonneg _ todo); lia).
  rewrite (legal_points_true _ _ _ HI HB Hl).
  replace (assertb asrt true) with (Ok tt) by (destruct asrt; auto). rewrite !bind_Ok.
  destruct (seq_outer_ok _ g (p :: todo) eq_refl Hok Hl (2 * length (p :: todo) + 2) s [] p todo [] HI eq_refl)
    as (s1 & ret & E & I1 & R1 & SS & Hr & He & Hw).
  { destruct (zn (c_label s) p =? 0); simpl; lia. }
  change (lenZ (@nil Z)) with 0 in *. rewrite E, bind_Ok.
  destruct (apply_merge_ok _ _ I1) as (s' & E' & HQ' & L & Nw).
  rewrite E', bind_Ok. cbn [app]. exists s', ret. split; auto. split; auto.
  rewrite (Q_rep _ s (conj HI H0)) in *.
  split; [rewrite L, Nw, R1; auto|]. split; auto. split; [|split; auto].
  - intros x Hx. apply Hr in Hx. tauto.
  - intros x Hx. destruct (Hw x Hx) as [W|W]; auto. rewrite Z.sub_0_r in W. auto.
Qed.

(** ** prune *)

Definition used (rp : list Z) : list Z := filter (fun x => negb (x =? 0)) (unique rp).
Definition rank (rp : list Z) (v : Z) : Z := lenZ (filter (fun u => u <=? v) (used rp)).

Lemma used_In : forall rp x, In x (used rp) <-> In x rp /\ x <> 0.
Proof.
  intros. unfold used. rewrite filter_In, unique_In.
  destruct (x =? 0) eqn:E; simpl; intuition (try lia; try discriminate).
Qed.

Lemma used_sorted : forall rp, StronglySorted Z.lt (used rp).
Proof. intros; apply filter_ssorted, unique_sorted. Qed.

Lemma used_NoDup : forall rp, NoDup (used rp).
Proof. intros; apply ssorted_lt_NoDup, used_sorted. Qed.

(** Sorted lists with the same elements are equal. *)
Lemma ssorted_ext : forall a b, StronglySorted Z.lt a -> StronglySorted Z.lt b ->
  (forall x, In x a <-> In x b) -> a = b.
Proof.
  induction a as [|x a IH]; intros [|y b] Ha Hb H; auto.
  - exfalso. apply (proj2 (H y)). simpl; auto.
  - exfalso. apply (proj1 (H x)). simpl; auto.
  - apply StronglySorted_inv in Ha. destruct Ha as [Ha Fa].
    apply StronglySorted_inv in Hb. destruct Hb as [Hb Fb].
    rewrite Forall_forall in Fa, Fb.
    assert (x = y).
    { pose proof (proj1 (H x) (or_introl eq_refl)) as H1. pose proof (proj2 (H y) (or_introl eq_refl)) as H2.
      destruct H1 as [H1|H1]; auto. destruct H2 as [H2|H2]; auto.
      specialize (Fb _ H1). specialize (Fa _ H2). lia. }
    subst y. f_equal. apply IH; auto. intros z. split; intros Hz.
    + pose proof (proj1 (H z) (or_intror Hz)) as [->|]; auto. specialize (Fa _ Hz). lia.
    + pose proof (proj2 (H z) (or_intror Hz)) as [->|]; auto. specialize (Fb _ Hz). lia.
Qed.

(** Rank in a sorted list. *)
Lemma filter_le_app : forall r i, filter (fun u => u <=? i) (r ++ [i + 1]) = filter (fun u => u <=? i) r.
Proof.
  intros. rewrite filter_app. simpl. replace (i + 1 <=? i) with false by lia. now rewrite app_nil_r.
Qed.

Lemma filter_all : forall (f : Z -> bool) l, (forall x, In x l -> f x = true) -> filter f l = l.
Proof.
  induction l; intros; simpl; auto. rewrite H by (simpl; auto). f_equal. apply IHl.
  intros; apply H; simpl; auto.
Qed.

Lemma filter_none : forall (f : Z -> bool) l, (forall x, In x l -> f x = false) -> filter f l = [].
Proof.
  induction l; intros; simpl; auto. rewrite H by (simpl; auto). apply IHl.
  intros; apply H; simpl; auto.
Qed.

(** Roots below [n]. *)
Definition roots (ren : list Z) (n : Z) : list Z := filter (fun i => zn ren i =? i) (zrange 1 n).

Lemma prune_loop_ok : forall ren n, lenZ ren >= n -> 1 <= n ->
  exists ren', prune_loop n ren = Ok (ren', 1 + lenZ (roots ren n)) /\ lenZ ren' = lenZ ren /\
    forall i, 0 <= i < lenZ ren -> zn ren' i =
      if (1 <=? i) && (i <? n) && (zn ren i =? i) then lenZ (filter (fun u => u <=? i) (roots ren n))
      else zn ren i.
Proof.
  intros ren n Hlen Hn.
  assert (G : forall m, 1 <= m <= n -> exists ren',
    foldM (fun acc i =>
           let (renum, new) := (acc : list Z * Z) in
           r <- vget renum i ;;
           if r =? i then renum' <- vset renum i new ;; Ok (renum', new + 1)
           else Ok (renum, new)) (zrange 1 m) (ren, 1) = Ok (ren', 1 + lenZ (roots ren m)) /\
    lenZ ren' = lenZ ren /\
    forall i, 0 <= i < lenZ ren -> zn ren' i =
      if (1 <=? i) && (i <? m) && (zn ren i =? i) then lenZ (filter (fun u => u <=? i) (roots ren m))
      else zn ren i).
  { intros m Hm. replace m with (1 + Z.of_nat (Z.to_nat (m - 1))) in * by lia.
    remember (Z.to_nat (m - 1)) as k eqn:Ek. clear Ek. revert Hm. induction k as [|k IH]; intros Hm.
    - exists ren. rewrite zrange_nil by lia. split; [reflexivity|]. split; auto. intros i Hi.
      assert (Hb : (1 <=? i) && (i <? 1 + Z.of_nat 0) = false) by (change (1 + Z.of_nat 0) with 1; lia).
      rewrite Hb. reflexivity.
    - replace (1 + Z.of_nat (S k)) with ((1 + Z.of_nat k) + 1) in * by lia.
      set (j := 1 + Z.of_nat k) in *.
      destruct IH as (r1 & E & L & H); [lia|].
      unfold roots. rewrite zrange_S by lia. rewrite foldM_app, E, bind_Ok. cbn [foldM].
      rewrite vget_ok by lia. rewrite bind_Ok.
      rewrite filter_app. cbn [filter]. fold (roots ren j).
      assert (Hj : zn r1 j = zn ren j).
      { rewrite H by lia. replace ((1 <=? j) && (j <? j)) with false by lia. reflexivity. }
      rewrite Hj. destruct (zn ren j =? j) eqn:Er.
      + rewrite vset_ok by lia. rewrite !bind_Ok. eexists. split; [|split].
        * do 2 f_equal. rewrite lenZ_app. change (lenZ [j]) with 1. lia.
        * now rewrite upd_lenZ.
        * intros i Hi. rewrite zn_upd by lia.
          rewrite filter_app. cbn [filter].
          assert (Hall : forall x, In x (roots ren j) -> x < j).
          { intros x Hx. apply filter_In in Hx. destruct Hx as [Hx _]. apply zrange_In in Hx. lia. }
          destruct (j =? i) eqn:Eji.
          -- assert (i = j) by lia. subst i. rewrite Er.
             replace ((1 <=? j) && (j <? j + 1)) with true by lia. cbn [andb].
             replace (j <=? j) with true by lia.
             rewrite filter_all by (intros x Hx; apply Hall in Hx; lia).
             rewrite lenZ_app. change (lenZ [j]) with 1. lia.
          -- rewrite H by auto. destruct (zn ren i =? i); rewrite ?andb_false_r; auto. rewrite !andb_true_r.
             replace (i <? j + 1) with (i <? j) by lia.
             destruct ((1 <=? i) && (i <? j)) eqn:Eb; auto.
             replace (j <=? i) with false by lia. now rewrite app_nil_r.
      + rewrite bind_Ok, app_nil_r. eexists. split; [reflexivity|]. split; auto.
        intros i Hi. rewrite H by auto.
        destruct (zn ren i =? i) eqn:Ei; rewrite ?andb_false_r; auto. rewrite !andb_true_r.
        destruct (Z.eq_dec i j); [subst; lia|].
        replace (i <? j + 1) with (i <? j) by lia. reflexivity. }
  destruct (G n ltac:(lia)) as (r & E & L & H). exists r. unfold prune_loop. auto.
Qed.

Lemma rank_pos : forall rp v, In v (used rp) -> 1 <= rank rp v <= lenZ (used rp).
Proof.
  intros. unfold rank. split; [|apply filter_le].
  assert (In v (filter (fun u => u <=? v) (used rp))) by (apply filter_In; split; auto; lia).
  destruct (filter _ _); [simpl in H0; tauto|]. rewrite lenZ_cons. pose proof (lenZ_nonneg _ l). lia.
Qed.

Lemma filter_sub_len : forall (l : list Z) f g, (forall x, In x l -> f x = true -> g x = true) ->
  lenZ (filter f l) <= lenZ (filter g l).
Proof.
  unfold lenZ. induction l; intros f g H; simpl; [lia|].
  assert (Z.of_nat (length (filter f l)) <= Z.of_nat (length (filter g l))).
  { apply IHl. intros; apply H; simpl; auto. }
  specialize (H a (or_introl eq_refl)).
  destruct (f a), (g a); simpl; try lia.
Qed.

Lemma rank_mono : forall rp v w, In v (used rp) -> In w (used rp) -> v < w -> rank rp v < rank rp w.
Proof.
  intros rp v w Hv Hw Hlt. unfold rank. revert Hw. pose proof (used_NoDup rp) as ND. clear Hv.
  induction (used rp) as [|u l IH]; intros Hw; [simpl in Hw; tauto|].
  inversion ND; subst. cbn [filter]. destruct Hw as [->|Hw].
  - replace (w <=? v) with false by lia. replace (w <=? w) with true by lia.
    rewrite lenZ_cons. pose proof (filter_sub_len l (fun u => u <=? v) (fun u => u <=? w)).
    assert (lenZ (filter (fun u => u <=? v) l) <= lenZ (filter (fun u => u <=? w) l)) by (apply H; intros; lia). lia.
  - specialize (IH H2 Hw). destruct (u <=? v) eqn:E1, (u <=? w) eqn:E2; rewrite ?lenZ_cons; try lia.
Qed.

Lemma rank_zero : forall N a, AI N a -> rank (fst a) 0 = 0.
Proof.
  intros N a HA. unfold rank. rewrite filter_none; [reflexivity|].
  intros x Hx. apply used_In in Hx. destruct Hx as [Hx H0]. apply In_zn in Hx.
  destruct Hx as (i & Hi & <-). rewrite (ai_len _ _ HA) in Hi. pose proof (ai_rng _ _ HA i Hi). lia.
Qed.

Lemma rank_surj : forall rp n, 1 <= n <= lenZ (used rp) -> exists v, In v (used rp) /\ rank rp v = n.
Proof.
  intros rp n Hn. exists (zn (used rp) (n - 1)).
  split; [apply zn_In; lia|]. unfold rank. pose proof (used_sorted rp) as SS.
  revert n Hn SS. induction (used rp) as [|u l IH]; intros n Hn SS; [unfold lenZ in Hn; simpl in Hn; lia|].
  rewrite lenZ_cons in Hn. apply StronglySorted_inv in SS. destruct SS as [SS F]. rewrite Forall_forall in F.
  destruct (Z.eq_dec n 1) as [->|].
  - change (zn (u :: l) (1 - 1)) with u. cbn [filter]. replace (u <=? u) with true by lia.
    rewrite filter_none by (intros x Hx; apply F in Hx; lia). reflexivity.
  - change (u :: l) with ([u] ++ l). rewrite zn_app_r by (change (lenZ [u]) with 1; lia).
    change (lenZ [u]) with 1. cbn [app filter].
    specialize (IH (n - 1) ltac:(lia) SS).
    assert (In (zn l (n - 1 - 1)) l) by (apply zn_In; lia). pose proof (F _ H).
    replace (u <=? zn l (n - 1 - 1)) with true by lia. rewrite lenZ_cons, IH. lia.
Qed.

Lemma prune_ok : forall N s, Q N s ->
  exists s', prune s = Ok s' /\ Q N s' /\ c_label s' = map (rank (c_label s)) (c_label s) /\
    c_new s' = 1 + lenZ (used (c_label s)).
Proof.
  intros N s HQ. pose proof HQ as [HI H0]. unfold prune.
  pose proof (inv_newN _ _ HI) as HnN. pose proof (iv_rlen _ _ HI) as Hrl.
  pose proof (iv_len _ _ HI) as Hl. pose proof (iv_nlen _ _ HI) as Hnl.
  pose proof (iv_new _ _ HI) as Hn1. pose proof (iv_N _ _ HI) as HN0.
  destruct (iv_nm0 _ _ HI H0) as [Hnx Hroot].
  rewrite vset_ok by lia. rewrite bind_Ok.
  set (ren0 := upd (Z.to_nat 0) 0 (c_renum s)).
  assert (Hr0 : forall i, 0 <= i -> zn ren0 i = zn (c_renum s) i).
  { intros i Hi. unfold ren0. rewrite zn_upd by lia. destruct (0 =? i) eqn:E; auto.
    assert (i = 0) by lia. subst. symmetry. apply (iv_r0 _ _ HI). }
  assert (Hl0 : lenZ ren0 = N + 1) by (unfold ren0; rewrite upd_lenZ; auto).
  destruct (prune_loop_ok ren0 (c_new s)) as (ren1 & E & L1 & H1); try lia.
  rewrite E, bind_Ok. clear E.
  (* roots = used *)
  assert (HU : roots ren0 (c_new s) = used (c_label s)).
  { apply ssorted_ext; [apply filter_ssorted, zseq_ssorted|apply used_sorted|].
    intros x. unfold roots. rewrite filter_In, zrange_In, used_In. split.
    - intros [Hx Ex]. rewrite Hr0 in Ex by lia.
      destruct (iv_wit _ _ HI x Hx ltac:(lia)) as (p & Hp & Ep). rewrite Hroot in Ep by auto.
      split; [|lia]. rewrite <- Ep. apply zn_In. lia.
    - intros [Hx Hne]. apply In_zn in Hx. destruct Hx as (p & Hp & <-). rewrite Hl in Hp.
      pose proof (iv_lab _ _ HI p Hp). split; [lia|]. rewrite Hr0 by lia. rewrite Hroot by auto. lia. }
  rewrite HU in *.
  pose proof (Inv_AI _ _ HI) as HA. rewrite (Q_rep _ _ HQ) in HA.
  pose proof (rank_zero _ _ HA) as Hrank0. cbn [fst] in Hrank0.
  assert (Hlabr : forall p, 0 <= p < N -> zn ren1 (zn (c_label s) p) = rank (c_label s) (zn (c_label s) p)).
  { intros p Hp. pose proof (iv_lab _ _ HI p Hp) as Hlp. rewrite H1 by lia.
    rewrite Hr0, Hroot by (auto; lia). rewrite Z.eqb_refl, andb_true_r.
    destruct ((1 <=? zn (c_label s) p) && (zn (c_label s) p <? c_new s)) eqn:Eb; auto.
    assert (Ez : zn (c_label s) p = 0) by lia. rewrite Ez. auto. }
  unfold private_renumber. rewrite mapM_vget_ok.
  2:{ intros x Hx. apply In_zn in Hx. destruct Hx as (i & Hi & <-).
      pose proof (iv_lab _ _ HI i ltac:(lia)). lia. }
  rewrite bind_Ok. unfold iota. replace ((c_new s <? 0) || (lenZ ren1 <? c_new s)) with false by lia.
  rewrite bind_Ok. eexists. split; [reflexivity|]. cbn [c_label c_new].
  assert (HL : map (zn ren1) (c_label s) = map (rank (c_label s)) (c_label s)).
  { apply map_ext_in. intros x Hx. apply In_zn in Hx. destruct Hx as (i & Hi & <-). apply Hlabr. lia. }
  rewrite HL. split; [|auto].
  (* renum is the identity afterwards *)
  assert (Hid : forall i, 0 <= i <= N ->
     zn (zseq 0 (Z.to_nat (c_new s)) ++ skipn (Z.to_nat (c_new s)) ren1) i = i).
  { intros i Hi. destruct (Z_lt_le_dec i (c_new s)).
    - rewrite zn_app_l by (rewrite zseq_lenZ; lia). rewrite zn_zseq; lia.
    - rewrite zn_app_r by (rewrite zseq_lenZ; lia). rewrite zseq_lenZ.
      unfold zn at 1. rewrite <- (firstn_skipn (Z.to_nat (c_new s)) ren1) in H1.
      assert (Hi1 : zn ren1 i = i).
      { rewrite <- (firstn_skipn (Z.to_nat (c_new s)) ren1). rewrite H1 by lia.
        replace (i <? c_new s) with false by lia. rewrite andb_false_r. cbn [andb].
        rewrite Hr0 by lia. apply (iv_fresh _ _ HI). lia. }
      rewrite <- Hi1 at 2. unfold zn. rewrite <- (firstn_skipn (Z.to_nat (c_new s)) ren1) at 2.
      rewrite app_nth2; rewrite firstn_length; [f_equal|]; unfold lenZ in *; lia. }
  assert (Hrg : forall p, 0 <= p < N -> 0 <= rank (c_label s) (zn (c_label s) p) < 1 + lenZ (used (c_label s))).
  { intros p Hp. pose proof (lenZ_nonneg _ (used (c_label s))).
    destruct (Z.eq_dec (zn (c_label s) p) 0) as [Ez|Ez]; [rewrite Ez, Hrank0; lia|].
    pose proof (rank_pos (c_label s) (zn (c_label s) p)). 
    assert (In (zn (c_label s) p) (used (c_label s))) by (apply used_In; split; auto; apply zn_In; lia).
    specialize (H2 H3). lia. }
  assert (Hzl : forall p, 0 <= p < N -> zn (map (rank (c_label s)) (c_label s)) p = rank (c_label s) (zn (c_label s) p)).
  { intros; apply zn_map; lia. }
  assert (HuN : lenZ (used (c_label s)) <= N).
  { assert (forall x, In x (used (c_label s)) -> 1 <= x < c_new s).
    { intros x Hx. apply used_In in Hx. destruct Hx as [Hx Hne]. apply In_zn in Hx.
      destruct Hx as (i & Hi & <-). pose proof (iv_lab _ _ HI i ltac:(lia)). lia. }
    pose proof (NoDup_incl_len _ 1 (c_new s) (used_NoDup (c_label s)) H Hn1). lia. }
  split; [|exact H0].
  constructor; cbn [c_label c_new c_nmerge c_renum c_next]; auto; try lia.
  - unfold lenZ. rewrite map_length. exact Hl.
  - rewrite lenZ_app, zseq_lenZ. unfold lenZ in *. rewrite skipn_length. lia.
  - pose proof (lenZ_nonneg _ (used (c_label s))). lia.
  - (* count *)
    assert (lenZ (used (c_label s)) <= nz (c_label s)).
    { unfold nz, lenZ. apply Nat2Z.inj_le. apply NoDup_incl_length; [apply used_NoDup|].
      intros x Hx. apply used_In in Hx. apply filter_In. destruct Hx. split; auto. destruct (x =? 0) eqn:?; auto; lia. }
    assert (nz (map (rank (c_label s)) (c_label s)) = nz (c_label s)).
    { unfold nz, lenZ. f_equal.
      assert (HH : forall x, In x (c_label s) -> (rank (c_label s) x =? 0) = (x =? 0)).
      { intros x Hx. destruct (x =? 0) eqn:Ex.
        - assert (x = 0) as -> by lia. rewrite Hrank0. auto.
        - assert (Hx0 : x <> 0) by lia.
          pose proof (rank_pos (c_label s) x (proj2 (used_In _ x) (conj Hx Hx0))). lia. }
      revert HH. generalize (rank (c_label s)). intros f HH.
      clear - HH. induction (c_label s); simpl; auto.
      rewrite HH by (simpl; auto). destruct (a =? 0); simpl; [|f_equal]; apply IHl; intros; apply HH; simpl; auto. }
    unfold nz in *. lia.
  - intros p Hp. rewrite Hzl by auto. apply Hrg; auto.
  - apply Hid; lia.
  - intros i Hi. pose proof (lenZ_nonneg _ (used (c_label s))). split; [apply Hid; lia|]. apply Hnx; lia.
  - intros r Hr Er. exists []. split; [constructor; apply Hnx; lia|].
    split; [constructor; [simpl; auto|constructor]|]. split; [simpl; tauto|].
    intros p Hp Ep. rewrite Hzl in * by auto. specialize (Hrg p Hp). rewrite Hid in Ep by lia. left; auto.
  - intros p Hp Hn. rewrite Hzl in * by auto. specialize (Hrg p Hp). rewrite !Hid by lia. split; [lia|auto].
  - intros r Hr Er. destruct (rank_surj (c_label s) r ltac:(lia)) as (v & Hv & Ev).
    apply used_In in Hv. destruct Hv as [Hv _]. apply In_zn in Hv. destruct Hv as (p & Hp & <-).
    exists p. split; [lia|]. rewrite Hzl by lia. rewrite Ev. apply Hid. lia.
  - intros _. split; auto. intros p Hp. rewrite Hzl by auto. apply Hid. specialize (Hrg p Hp). lia.
Qed.
