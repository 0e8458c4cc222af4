(** * KernelProofs: kernels and constructors (proofs only). *)

From Coq Require Import ZArith List Bool Lia Sorted.
From Verif Require Import Base BaseLemmas Cluster Kernel ClusterInv ClusterRefine ClusterGeom
  ClusterAbs ClusterRun ClusterMain SpecCluster.
Import ListNotations.
Open Scope Z_scope.

Lemma unravel_coords : forall shape p, unravel shape p = coords shape p.
Proof. reflexivity. Qed.

Lemma argwhere_In : forall shape vals c, In c (argwhere shape vals) <->
  exists p, 0 <= p < lenZ vals /\ zn vals p <> 0 /\ c = coords shape p.
Proof.
  intros. unfold argwhere. rewrite in_map_iff.
  assert (G : forall l a ip, In ip (combine (zseq a (length l)) l) <->
     exists k, 0 <= k < lenZ l /\ ip = (a + k, zn l k)).
  { clear. induction l as [|x l IH]; intros a ip.
    - simpl. split; [tauto|]. intros (k & Hk & _). unfold lenZ in Hk; simpl in Hk; lia.
    - cbn [length zseq combine In]. rewrite IH. rewrite lenZ_cons. pose proof (lenZ_nonneg _ l). split.
      + intros [<-|(k & Hk & ->)].
        * exists 0. split; [lia|]. rewrite Z.add_0_r. reflexivity.
        * exists (k + 1). split; [lia|]. f_equal; [lia|].
          change (x :: l) with ([x] ++ l). rewrite zn_app_r by (change (lenZ [x]) with 1; lia).
          f_equal. change (lenZ [x]) with 1. lia.
      + intros (k & Hk & ->). destruct (Z.eq_dec k 0) as [->|Hk0].
        * left. rewrite Z.add_0_r. reflexivity.
        * right. exists (k - 1). split; [lia|]. f_equal; [lia|].
          change (x :: l) with ([x] ++ l). rewrite zn_app_r by (change (lenZ [x]) with 1; lia).
          f_equal. }
  split.
  - intros (ip & <- & H). apply filter_In in H. destruct H as [H1 H2]. apply G in H1.
    destruct H1 as (k & Hk & ->). exists k. split; auto. cbn [fst snd] in *. rewrite unravel_coords.
    split; [|reflexivity]. destruct (zn vals k =? 0) eqn:E; [discriminate|lia].
  - intros (p & Hp & Hn & ->). exists (p, zn vals p). cbn [fst]. rewrite unravel_coords. split; auto.
    apply filter_In. split; [apply G; exists p; split; auto|]. cbn [snd].
    destruct (zn vals p =? 0) eqn:E; auto. lia.
Qed.

Lemma centre_mid : forall ks, Forall (fun n => 0 < n < big /\ n mod 2 = 1) ks ->
  map (fun n => (n - 1) / 2) ks = centre ks.
Proof.
  intros. unfold centre. apply map_ext_in. intros n Hn. rewrite Forall_forall in H.
  destruct (H n Hn) as [H1 H2]. pose proof (Z.div_mod n 2 ltac:(lia)) as D. rewrite H2 in D.
  replace (n - 1) with ((n / 2) * 2) by lia. apply Z.div_mul. lia.
Qed.

Lemma centre_inside : forall ks, Forall (fun n => 0 < n < big /\ n mod 2 = 1) ks -> inside ks (centre ks).
Proof.
  induction 1; simpl; auto. split; auto. split; [apply Z.div_pos; lia|]. apply Z.div_lt; lia.
Qed.

Lemma moved_false_map2 : forall ks m d c, inside ks m -> inside ks c ->
  (moved false ks m d c <-> d = map2 Z.sub c m).
Proof.
  induction ks as [|n ks IH]; intros [|x m] d [|y c] Hm Hc; simpl in *; try tauto.
  - destruct d; intuition congruence.
  - destruct Hm as [Hx Hm], Hc as [Hy Hc]. destruct d as [|t d].
    + split; [tauto|discriminate].
    + rewrite (IH m d c Hm Hc). split.
      * intros [-> ->]. f_equal. lia.
      * intros E. injection E as E1 E2. split; [lia|auto].
Qed.

Lemma map2_sub_zero : forall ks m c, inside ks m -> inside ks c ->
  (map2 Z.sub c m = repeat 0 (length ks) <-> c = m).
Proof.
  induction ks as [|n ks IH]; intros [|x m] [|y c] Hm Hc; simpl in *; try tauto.
  destruct Hm as [Hx Hm], Hc as [Hy Hc]. specialize (IH m c Hm Hc). split.
  - intros E. injection E as E1 E2. f_equal; [lia|tauto].
  - intros E. injection E as E1 E2. subst y. f_equal; [lia|]. tauto.
Qed.

Lemma kernel_to_dx_ok : forall asrt shape ks kv, good_kernel shape ks kv ->
  exists dx, kernel_to_dx asrt ks kv = Ok dx /\
    forall d, In d dx <-> set_offset ks kv d /\ d <> repeat 0 (length ks).
Proof.
  intros asrt shape ks kv (HL & HF & Hlen & Hc). unfold kernel_to_dx.
  rewrite centre_mid by auto. pose proof (centre_inside ks HF) as HI.
  assert (HP : Forall (fun n => 0 < n) ks) by (eapply Forall_impl; [|exact HF]; simpl; intros; lia).
  rewrite dot_strides by auto. pose proof (ravel_range ks _ HI) as HR.
  assert (Hz : zn kv (ravel ks (centre ks)) = 1) by (apply Hc; [exact HR|apply coords_ravel; auto]).
  replace (assertb asrt (forallb (fun n => n mod 2 =? 1) ks)) with (Ok tt).
  2:{ destruct asrt; auto. simpl. replace (forallb _ ks) with true; auto. symmetry.
      apply forallb_forall. intros n Hn. rewrite Forall_forall in HF. specialize (HF n Hn). lia. }
  rewrite bind_Ok. rewrite vget_ok by lia. rewrite bind_Ok, Hz.
  replace (assertb asrt (1 =? 1)) with (Ok tt) by (destruct asrt; auto). rewrite bind_Ok.
  rewrite vset_ok by lia. rewrite bind_Ok. eexists. split; [reflexivity|].
  intros d. rewrite in_map_iff. split.
  - intros (c & <- & H). apply argwhere_In in H. destruct H as (p & Hp & Hn & ->).
    rewrite upd_lenZ, Hlen in Hp. rewrite zn_upd in Hn by lia.
    destruct (ravel ks (centre ks) =? p) eqn:E; [lia|].
    assert (HIp : inside ks (coords ks p)) by (apply coords_inside; auto).
    split.
    + exists p. split; [exact Hp|]. split; [exact Hn|]. apply moved_false_map2; auto.
    + intros E2. apply map2_sub_zero in E2; auto. rewrite <- E2, ravel_coords in E by auto. lia.
  - intros [(p & Hp & Hn & HM) Hd]. exists (coords ks p).
    assert (HIp : inside ks (coords ks p)) by (apply coords_inside; auto).
    apply moved_false_map2 in HM; auto. split; auto.
    apply argwhere_In. exists p. rewrite upd_lenZ, Hlen. split; auto. split; auto.
    rewrite zn_upd by (unfold pixel in Hp; lia).
    destruct (ravel ks (centre ks) =? p) eqn:E; auto. exfalso. apply Hd. rewrite HM.
    apply map2_sub_zero; auto. assert (ravel ks (centre ks) = p) as <- by lia. apply coords_ravel; auto.
Qed.

Lemma set_offset_bound : forall ks kv d, Forall (fun n => 0 < n < big /\ n mod 2 = 1) ks ->
  set_offset ks kv d -> length d = length ks /\ Forall (fun x => - big < x < big) d.
Proof.
  intros ks kv d HF (p & Hp & _ & HM).
  assert (HP : Forall (fun n => 0 < n) ks) by (eapply Forall_impl; [|exact HF]; simpl; intros; lia).
  pose proof (coords_inside ks p HP Hp) as HI. pose proof (centre_inside ks HF) as HC.
  revert HM HI HC. generalize (coords ks p) (centre ks). clear - HF.
  revert d. induction HF as [|n ks Hn HF IH]; intros [|t d] [|y c] [|x m] HM HI HC; simpl in *; try tauto; auto.
  destruct HM as [H1 HM], HI as [H2 HI], HC as [H3 HC].
  destruct (IH d c m HM HI HC) as [L F]. split; [congruence|]. constructor; auto. unfold big in *. lia.
Qed.

Lemma make_kernel_ok : forall asrt shape per ks kv, good_shape shape -> good_kernel shape ks kv ->
  exists g, make_kernel asrt shape per ks kv = Ok g /\ wf g /\ g_shape g = shape /\ g_per g = per /\
    (forall d, In d (g_dx g) <-> set_offset ks kv d /\ d <> repeat 0 (length ks)).
Proof.
  intros asrt shape per ks kv (H1 & H2 & H3) HK. pose proof HK as (HL & HF & Hlen & Hc).
  destruct (kernel_to_dx_ok asrt shape ks kv HK) as (dx & E & HD).
  exists (mkcfg shape per dx). unfold make_kernel. rewrite E, bind_Ok. split; auto.
  split; [|cbn; auto]. split; [auto|]. split; [auto|]. split; [auto|].
  cbn [g_dx g_shape]. intros d Hd. apply HD in Hd. destruct Hd as [Hd _].
  destruct (set_offset_bound ks kv d HF Hd) as [A B]. split; [congruence|auto].
Qed.

Lemma moved_zero : forall per shape a b n, inside shape a -> inside shape b ->
  moved per shape a (repeat 0 n) b -> a = b.
Proof.
  intros per shape. induction shape as [|k shape IH]; intros [|x a] [|y b] n Ha Hb H; simpl in *; try tauto.
  destruct n; simpl in *; try tauto. destruct Ha as [Hx Ha], Hb as [Hy Hb], H as [H1 H2].
    f_equal; [|eauto]. destruct per; [rewrite Z.add_0_r, Z.mod_small in H1 by lia|]; lia.
Qed.

Lemma kernel_neighbour_dx : forall shape per ks kv g, good_shape shape -> g_shape g = shape -> g_per g = per ->
  (forall d, In d (g_dx g) <-> set_offset ks kv d /\ d <> repeat 0 (length ks)) ->
  forall p q, p <> q ->
  (neighbour (g_per g) (g_shape g) (g_dx g) p q <-> kernel_neighbour per shape ks kv p q).
Proof.
  intros shape per ks kv g (H1 & H2 & H3) -> -> HD p q Hpq. unfold neighbour, kernel_neighbour. split.
  - intros (Hp & Hq & d & Hd & HM). split; auto. split; auto. exists d. split; auto. apply HD; auto.
  - intros (Hp & Hq & d & Hd & HM). split; auto. split; auto. exists d. split; auto. apply HD. split; auto.
    intros ->. apply Hpq.
    assert (HP : Forall (fun n => 0 < n) shape) by (apply zprod_pos_inv; auto; unfold pixel in Hp; lia).
    apply (coords_inj shape); auto. eapply moved_zero; [| |exact HM]; apply coords_inside; auto.
Qed.

Lemma kernel_in_range : forall shape per ks kv g, g_shape g = shape -> g_per g = per -> length ks = length shape ->
  (forall d, In d (g_dx g) <-> set_offset ks kv d /\ d <> repeat 0 (length ks)) ->
  offsets_in_range per shape (set_offset ks kv) -> in_range g.
Proof.
  intros shape per ks kv g E1 E2 HL HD HR. unfold in_range. rewrite E1, E2.
  destruct shape as [|n0 [|n1 [|n2 t]]]; cbn [offsets_in_range] in *; auto.
  - intros Hper d0 Hd. apply HR; auto. apply HD; auto.
  - assert (LK : length ks = 2%nat) by auto. rewrite LK in HD. cbn [repeat] in HD.
    destruct per; intros d0 d1 Hd; apply HD in Hd; destruct Hd as [Hd _]; specialize (HR d0 d1 Hd).
    + auto.
    + destruct HR as [R1 R2]. split.
      * intros E. destruct (R1 E) as [|[|]]; auto. destruct (Z.eq_dec d1 0); auto.
        right; right. apply HD. split; auto. intros X; injection X; lia.
      * intros E E3. destruct (R2 E E3) as [|[|]]; auto. destruct (Z.eq_dec d0 0); auto.
        right; right. apply HD. split; auto. intros X; injection X; lia.
Qed.

Lemma kernel_sym : forall (shape ks kv : list Z) g, length ks = length shape ->
  (forall d, In d (g_dx g) <-> set_offset ks kv d /\ d <> repeat 0 (length ks)) ->
  kernel_symmetric ks kv -> symmetric g.
Proof.
  intros shape ks kv g HL HD HS d Hd. apply HD in Hd. destruct Hd as [Hd Hn]. apply HD.
  split; [apply HS; auto|]. intros E. apply Hn. 
  rewrite <- (map_id d). transitivity (map (fun x => - - x) d); [apply map_ext; intros; lia|].
  rewrite <- map_map, E. clear. induction (length ks); simpl; auto. f_equal; auto.
Qed.

(** ** Default neighbourhood *)

Lemma make_default_ok : forall shape per, good_shape shape -> (length shape <= 3)%nat ->
  exists g, make_default shape per = Ok g /\ wf g /\ g_shape g = shape /\ g_per g = per /\ symmetric g /\
    (0 < zprod shape -> in_range g) /\
    (forall p q, neighbour (g_per g) (g_shape g) (g_dx g) p q <-> face_neighbour per shape p q).
Proof.
  intros shape per (H1 & H2 & H3) HL. unfold make_default.
  assert (HDX : exists dx, default_dx (length shape) = Ok dx /\
     (forall d, In d dx -> length d = length shape /\ Forall (fun x => -1 <= x <= 1) d /\ In (map Z.opp d) dx)).
  { destruct shape as [|n0 [|n1 [|n2 [|n3 t]]]]; cbn [length default_dx] in *; try congruence; try lia;
    eexists; (split; [reflexivity|]); intros d Hd; simpl in Hd;
    repeat (destruct Hd as [<-|Hd]; [split; [reflexivity|split; [repeat constructor; lia|simpl; tauto]]|]); tauto. }
  destruct HDX as (dx & E & HD). rewrite E, bind_Ok. exists (mkcfg shape per dx). split; auto.
  cbn [g_shape g_per g_dx].
  split.
  { split; [auto|]. split; [auto|]. split; [auto|]. cbn [g_shape g_dx]. intros d Hd.
    destruct (HD d Hd) as (A & B & _). split; auto.
    eapply Forall_impl; [|exact B]. simpl. unfold big. intros; lia. }
  split; [auto|]. split; [auto|].
  split. { intros d Hd. apply (HD d Hd). }
  split.
  { intros HN. unfold in_range; cbn [g_shape g_per g_dx].
    pose proof (zprod_pos_inv _ H2 HN) as HP.
    destruct shape as [|n0 [|n1 [|n2 t]]]; cbn [offsets_in_range]; auto.
    - intros _ d0 Hd. destruct (HD _ Hd) as (_ & B & _). apply Forall_inv in B. apply Forall_inv in HP. lia.
    - cbn [length default_dx] in E. injection E as <-.
      pose proof (Forall_inv HP). pose proof (Forall_inv (Forall_inv_tail HP)).
      destruct per; intros d0 d1 Hd; destruct (HD _ Hd) as (_ & B & _);
      pose proof (Forall_inv B); pose proof (Forall_inv (Forall_inv_tail B)); cbv beta in *.
      + split; intros; lia.
      + simpl in Hd. split; intros; repeat (destruct Hd as [Hd|Hd]; [injection Hd; lia|]); tauto. }
  intros p q. unfold neighbour, face_neighbour.
  split; intros (Hp & Hq & H); (split; [auto|split; [auto|]]).
  - destruct H as (d & Hd & HM).
    assert (HP : Forall (fun n => 0 < n) shape) by (apply zprod_pos_inv; auto; unfold pixel in Hp; lia).
    pose proof (coords_inside shape p HP Hp) as Ip. pose proof (coords_inside shape q HP Hq) as Iq.
    revert Ip Iq HM. generalize (coords shape p) (coords shape q). intros a b Ip Iq HM.
    assert (HZ : forall n x y, 0 <= x < n -> 0 <= y < n ->
       (if per then y = (x + 0) mod n else y = x + 0) -> x = y).
    { intros n x y Hx Hy. destruct per; rewrite Z.add_0_r; [rewrite Z.mod_small by lia|]; auto. }
    assert (HM1 : forall n x y, (if per then y = (x + -1) mod n else y = x + -1) \/ (if per then y = (x + 1) mod n else y = x + 1) ->
       (if per then y = (x + 1) mod n \/ y = (x - 1) mod n else y = x + 1 \/ y = x - 1)).
    { intros n x y. replace (x - 1) with (x + -1) by lia. destruct per; tauto. }
    destruct shape as [|n0 [|n1 [|n2 [|n3 t]]]]; cbn [length default_dx] in *; try congruence; try lia;
    injection E as <-; simpl in Hd;
    destruct a as [|a0 [|a1 [|a2 [|? ?]]]]; simpl in Ip; try tauto;
    destruct b as [|b0 [|b1 [|b2 [|? ?]]]]; simpl in Iq; try tauto;
    repeat (destruct Hd as [<-|Hd]; [cbn [moved] in HM; cbn [face]|]); try tauto.
    all: repeat match goal with H : _ /\ _ |- _ => destruct H end.
    all: repeat match goal with
      | H : if ?c then ?y = (?x + 0) mod ?n else ?y = ?x + 0 |- _ =>
          apply (HZ n x y) in H; [|lia|lia]; subst
      | H : if ?c then ?y = (?x + -1) mod ?n else _ |- _ => apply (fun h => HM1 n x y (or_introl h)) in H
      | H : if ?c then ?y = (?x + 1) mod ?n else ?y = ?x + 1 |- _ => apply (fun h => HM1 n x y (or_intror h)) in H
      end; tauto.
  - assert (HP : Forall (fun n => 0 < n) shape) by (apply zprod_pos_inv; auto; unfold pixel in Hp; lia).
    pose proof (coords_inside shape p HP Hp) as Ip. pose proof (coords_inside shape q HP Hq) as Iq.
    revert Ip Iq H. generalize (coords shape p) (coords shape q). intros a b Ip Iq HM.
    assert (HZ : forall n x, 0 <= x < n -> (if per then x = (x + 0) mod n else x = x + 0)).
    { intros n x Hx. destruct per; rewrite Z.add_0_r; [rewrite Z.mod_small by lia|]; auto. }
    assert (HM1 : forall n x y, (if per then y = (x + 1) mod n \/ y = (x - 1) mod n else y = x + 1 \/ y = x - 1) ->
       (if per then y = (x + -1) mod n else y = x + -1) \/ (if per then y = (x + 1) mod n else y = x + 1)).
    { intros n x y. replace (x - 1) with (x + -1) by lia. destruct per; tauto. }
    destruct shape as [|n0 [|n1 [|n2 [|n3 t]]]]; cbn [length default_dx] in *; try congruence; try lia;
    injection E as <-;
    destruct a as [|a0 [|a1 [|a2 [|? ?]]]]; simpl in Ip; try tauto;
    destruct b as [|b0 [|b1 [|b2 [|? ?]]]]; simpl in Iq; try tauto; cbn [face] in HM.
    all: repeat match goal with H : _ /\ _ |- _ => destruct H end.
    + destruct HM as [[_ []]|[HM _]]. destruct (HM1 _ _ _ HM) as [K|K].
      * exists [-1]. split; [simpl; auto|]. cbn [moved]. auto.
      * exists [1]. split; [simpl; auto|]. cbn [moved]. auto.
    + destruct HM as [[<- [[_ []]|[HM _]]]|[HM E]].
      * destruct (HM1 _ _ _ HM) as [K|K]; [exists [0; -1]|exists [0; 1]]; (split; [simpl; tauto|]); cbn [moved]; repeat split; auto; apply HZ; lia.
      * injection E as <-.
        destruct (HM1 _ _ _ HM) as [K|K]; [exists [-1; 0]|exists [1; 0]]; (split; [simpl; tauto|]); cbn [moved]; repeat split; auto; apply HZ; lia.
    + destruct HM as [[<- [[<- [[_ []]|[HM _]]]|[HM E]]]|[HM E]].
      * destruct (HM1 _ _ _ HM) as [K|K]; [exists [0; 0; -1]|exists [0; 0; 1]]; (split; [simpl; tauto|]); cbn [moved]; repeat split; auto; apply HZ; lia.
      * injection E as <-.
        destruct (HM1 _ _ _ HM) as [K|K]; [exists [0; -1; 0]|exists [0; 1; 0]]; (split; [simpl; tauto|]); cbn [moved]; repeat split; auto; apply HZ; lia.
      * injection E as <- <-.
        destruct (HM1 _ _ _ HM) as [K|K]; [exists [-1; 0; 0]|exists [1; 0; 0]]; (split; [simpl; tauto|]); cbn [moved]; repeat split; auto; apply HZ; lia.
Qed.

(** ** kernel::nearest *)
Lemma nearest_faces : forall asrt ndim, (1 <= ndim <= 2)%nat ->
  exists kv, nearest asrt ndim = Ok (repeat 3 ndim, kv) /\ lenZ kv = zprod (repeat 3 ndim) /\
    forall p c, pixel (repeat 3 ndim) p -> coords (repeat 3 ndim) c = repeat 1 ndim ->
      pixel (repeat 3 ndim) c ->
      (zn kv p = 0 \/ zn kv p = 1) /\
      (zn kv p <> 0 <-> p = c \/ face_neighbour false (repeat 3 ndim) c p).
Proof.
  intros asrt ndim HN. destruct ndim as [|[|[|n]]]; try lia.
  - eexists. split; [destruct asrt; vm_compute; reflexivity|]. split; [reflexivity|].
    intros p c Hp Hc Hcp. cbn [repeat] in *. rewrite coords1 in Hc. injection Hc as ->.
    assert (X : p = 0 \/ p = 1 \/ p = 2) by (unfold pixel in Hp; cbn in Hp; lia).
    unfold face_neighbour. rewrite !coords1. cbn [face].
    destruct X as [->|[->| ->]]; (split; [vm_compute; auto|]); cbn [zn nth Z.to_nat Pos.to_nat];
    (split; [intros _|intros _; vm_compute; discriminate]); try (left; reflexivity); right;
    repeat split; auto; try (unfold pixel; cbn; lia); right; split; auto; lia.
  - eexists. split; [destruct asrt; vm_compute; reflexivity|]. split; [reflexivity|].
    intros p c Hp Hc Hcp. cbn [repeat] in *. rewrite coords2 in Hc. 
    assert (c = 4).
    { injection Hc as E1 E2. pose proof (Z.div_mod c 3 ltac:(lia)). lia. }
    subst c. clear Hc.
    assert (X : p = 0 \/ p = 1 \/ p = 2 \/ p = 3 \/ p = 4 \/ p = 5 \/ p = 6 \/ p = 7 \/ p = 8)
      by (unfold pixel in Hp; cbn in Hp; lia).
    unfold face_neighbour. rewrite !coords2.
    destruct X as [->|[->|[->|[->|[->|[->|[->|[->| ->]]]]]]]]; (split; [vm_compute; auto|]);
    (split; [intros Hn|intros [E|(_ & _ & HF)]]); try discriminate E; try (exfalso; apply Hn; reflexivity);
    try (vm_compute; discriminate);
    try (left; reflexivity); try (right; split; [exact Hcp|split; [exact Hp|vm_compute; intuition congruence]]);
    exfalso; vm_compute in HF; intuition discriminate.
Qed.
