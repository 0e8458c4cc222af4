(** * ThinTop: axes of one pixel (proofs only) *)

From Coq Require Import ZArith QArith Qcanon List Bool Lia Permutation.
From Verif Require Import Base BaseLemmas Cluster SpecCluster ClusterGeom ClusterMain ClusterTop Dilate SpecDilate SpecPath Path Array3 Array3Lemmas DilateTop Ensemble SpecEnsemble EnsembleSums EnsembleWindow EnsembleAdd EnsembleTop
  EnsembleL EnsembleW2c SpecAlgebra DerivedAlgebra SpecSymmetry DerivedCluster DerivedDilate DerivedEnsemble DerivedLineal SpecMoved PathProofs LineProofs LineGeom PathTop SpecPathSym PathSym W2cLaws SpecLinealMoved LinealMoved LinealMovedTop
  SpecLineal SpecRoi RoiTop SpecThin.
Import ListNotations.
Open Scope Z_scope.

(** ** Positions *)

Definition ins {A} (k : nat) (x : A) (l : list A) : list A := firstn k l ++ x :: skipn k l.

Lemma ins_0 : forall A (x : A) l, ins 0 x l = x :: l.
Proof. reflexivity. Qed.
Lemma ins_S : forall A k (x y : A) l, ins (S k) x (y :: l) = y :: ins k x l.
Proof. reflexivity. Qed.
Lemma ins_map : forall A B (f : A -> B) k x l, map f (ins k x l) = ins k (f x) (map f l).
Proof. intros. unfold ins. rewrite map_app. cbn [map]. rewrite firstn_map, skipn_map. reflexivity. Qed.
Lemma ins_length : forall A k (x : A) l, length (ins k x l) = S (length l).
Proof. intros. unfold ins. rewrite app_length. cbn [length]. rewrite <- (firstn_skipn k l) at 3. rewrite app_length. lia. Qed.
Lemma ins_Forall : forall A (P : A -> Prop) k x l, P x -> Forall P l -> Forall P (ins k x l).
Proof.
  intros A P k x l Hx H. unfold ins. rewrite <- (firstn_skipn k l) in H. apply Forall_app in H. apply Forall_app. destruct H. split; auto.
Qed.

Lemma zprod_ins : forall k l, zprod (ins k 1 l) = zprod l.
Proof.
  induction k as [|k IH]; intros l; [rewrite ins_0; cbn [zprod]; lia|]. destruct l as [|n l]; [reflexivity|]. rewrite ins_S. cbn [zprod]. rewrite IH. reflexivity.
Qed.

Lemma coords_ins : forall k shape p, (k <= length shape)%nat -> Forall (fun n => 0 < n) shape -> pixel shape p -> coords (ins k 1 shape) p = ins k 0 (coords shape p).
Proof.
  unfold pixel. induction k as [|k IH]; intros shape p HK HP Hp.
  - rewrite !ins_0. cbn [coords]. rewrite Z.div_small, Z.mod_small by lia. reflexivity.
  - destruct shape as [|n shape]; [cbn in HK; lia|]. rewrite ins_S. cbn [coords]. rewrite zprod_ins, ins_S. inversion HP; subst. rewrite IH; auto; [cbn in HK; lia|].
    apply Z.mod_pos_bound. clear -H2. induction H2; cbn [zprod]; nia.
Qed.

Lemma anchor_ins : forall k roi, anchor (ins k 1 roi) = ins k 0 (anchor roi).
Proof. intros. unfold anchor. rewrite ins_map. reflexivity. Qed.

Lemma diff_ins : forall k a b, length a = length b -> diff (ins k 0 a) (ins k 0 b) = ins k 0 (diff a b).
Proof.
  unfold diff. induction k as [|k IH]; intros [|x a] [|y b] HL; try discriminate; try reflexivity.
  rewrite !ins_S. cbn [combine map fst snd]. rewrite ins_S, IH; auto.
Qed.

Lemma offset_ins : forall k roi r, (k <= length roi)%nat -> Forall (fun n => 0 < n) roi -> pixel roi r -> offset (ins k 1 roi) r = ins k 0 (offset roi r).
Proof.
  intros k roi r HK HP Hr. unfold offset. rewrite coords_ins, anchor_ins, diff_ins; auto. rewrite EnsembleSums.coords_length. unfold anchor. rewrite map_length. reflexivity.
Qed.

Lemma movedb_ins : forall per k shape a d b, movedb per (ins k 1 shape) (ins k 0 a) (ins k 0 d) (ins k 0 b) = movedb per shape a d b \/ length a <> length shape \/ length d <> length shape \/ length b <> length shape.
Proof.
  intros per. induction k as [|k IH]; intros shape a d b.
  - left. rewrite !ins_0. cbn [movedb]. destruct per; reflexivity.
  - destruct shape as [|n shape], a as [|x a], d as [|t d], b as [|y b]; try (right; cbn [length]; lia).
    + left. cbn. destruct per; reflexivity.
    + destruct (IH shape a d b) as [H|H]; [left; rewrite !ins_S; cbn [movedb]; rewrite H; reflexivity|right; cbn [length]; lia].
Qed.

Lemma half_fits_ins : forall k shape roi, length roi = length shape -> half_fits shape roi -> half_fits (ins k 1 shape) (ins k 1 roi).
Proof.
  induction k as [|k IH]; intros [|n shape] [|m roi] HL H; try discriminate; rewrite ?ins_0, ?ins_S; cbn [half_fits] in *.
  - split; [change (1 / 2) with 0; lia|auto].
  - split; [change (1 / 2) with 0; lia|auto].
  - cbn. split; auto; lia.
  - split; [apply H|]. apply IH; auto. apply H.
Qed.

Lemma shapes_ins : forall per k roi shape, (length shape < 3)%nat -> shapes per roi shape -> shapes per (ins k 1 roi) (ins k 1 shape).
Proof.
  intros per k roi shape HL (H1 & H2 & H3 & H4 & H5). split; [rewrite !ins_length; lia|]. split; [rewrite ins_length; lia|].
  split; [apply ins_Forall; auto; lia|]. split; [apply ins_Forall; auto; lia|]. intros HP. apply half_fits_ins; auto.
Qed.

(** The same pixel. *)
Definition still (shape : list Z) (p q : Z) : Prop := pixel shape p /\ q = p.

Lemma still_matching : forall k shape, matching shape (ins k 1 shape) (still shape).
Proof.
  intros k shape. unfold matching, still, pixel. rewrite zprod_ins. split; [|split; [|split; [|split]]].
  - intros x x' [H ->]. auto.
  - intros x H. exists x. auto.
  - intros x H. exists x. auto.
  - intros x x' x'' [_ ->] [_ ->]. reflexivity.
  - intros x y x' [_ ->] [_ ->]. reflexivity.
Qed.

Lemma still_carried : forall A shape (l : list A), carried (still shape) l l.
Proof. intros A shape l p q [_ ->]. reflexivity. Qed.

Lemma still_image : forall A k shape (f : img A), is_image shape f -> carried_image (still shape) shape (ins k 1 shape) f (reshaped (ins k 1 shape) f).
Proof.
  intros A k shape f [H1 H2]. split; [split; auto|]. split; [split; [reflexivity|rewrite zprod_ins; exact H2]|]. apply still_carried.
Qed.

Lemma still_mask : forall k shape f, is_mask shape f -> carried_mask (still shape) shape (ins k 1 shape) f (reshaped (ins k 1 shape) f).
Proof.
  intros k shape f [[H1 H2] H3]. split; [split; auto; split; auto|]. split; [split; [split; [reflexivity|rewrite zprod_ins; exact H2]|exact H3]|]. apply still_carried.
Qed.

Lemma still_call : forall k shape c, two_point shape c -> carried_call (still shape) shape (ins k 1 shape) c (reshaped_call (ins k 1 shape) c).
Proof.
  intros k shape c H. destruct c; cbn [two_point carried_call reshaped_call] in *; try contradiction.
  1,2: destruct H as (H1 & H2 & H3); split; [apply still_image; auto|]; split; [apply still_image; auto|];
    match goal with |- carried_option _ ?m _ => destruct m as [[fm gm]|] end; cbn [option_map carried_option]; auto; destruct (H3 fm gm eq_refl); split; apply still_mask; auto.
  - destruct H as (H1 & H2 & H3). split; [apply still_image; auto|]. split; [apply still_image; auto|].
    match goal with |- carried_option _ ?m _ => destruct m as [fm|] end; cbn [option_map carried_option]; auto. apply still_mask; auto.
  - destruct H as (H1 & H3). split; [apply still_image; auto|].
    match goal with |- carried_option _ ?m _ => destruct m as [fm|] end; cbn [option_map carried_option]; auto. apply still_mask; auto.
Qed.

Lemma still_movedb : forall per k shape d p q, (k <= length shape)%nat -> Forall (fun n => 0 < n) shape -> length d = length shape -> pixel shape p -> pixel shape q ->
  movedb per shape (coords shape p) d (coords shape q) = movedb per (ins k 1 shape) (coords (ins k 1 shape) p) (ins k 0 d) (coords (ins k 1 shape) q).
Proof.
  intros per k shape d p q HK HP HL Hp Hq. rewrite !coords_ins by auto.
  destruct (movedb_ins per k shape (coords shape p) d (coords shape q)) as [H|H]; [symmetry; exact H|]. rewrite !EnsembleSums.coords_length in H. lia.
Qed.

Lemma thin_two_point : forall asrt per var k roi shape c, shapes per roi shape -> (length shape < 3)%nat -> (k <= length shape)%nat -> two_point shape c ->
  exists e e', fresh asrt roi per var c = Ok e /\ fresh asrt (ins k 1 roi) per var (reshaped_call (ins k 1 shape) c) = Ok e' /\
    forall r, pixel roi r -> same_at e r e' r.
Proof.
  intros asrt per var k roi shape c HS H3 HK HC. assert (HP : Forall (fun n => 0 < n) shape) by (apply image_pos; apply HS).
  assert (HR : Forall (fun n => 0 < n) roi) by (destruct HS as (_ & _ & H & _); eapply Forall_impl; [|exact H]; cbn beta; intros; lia).
  destruct (moved_call asrt per var roi (ins k 1 roi) shape (ins k 1 shape) (still shape) c (reshaped_call (ins k 1 shape) c) (ins k 0)) as (e & e' & E & E' & _ & _ & V); auto.
  - apply shapes_ins; auto.
  - apply still_matching.
  - apply still_call; auto.
  - intros d p p' q q' HL [Hp ->] [Hq ->]. apply still_movedb; auto.
  - right. intros d p p' q q' HL [Hp ->] [Hq ->]. apply still_movedb; auto.
  - exists e, e'. split; auto. split; auto. intros r Hr. apply V; auto; [unfold pixel; rewrite zprod_ins; exact Hr|].
    apply offset_ins; auto. destruct HS as (HL & _). lia.
Qed.

(** ** Paths in a plane *)

(** A dimension in which nothing happens. *)
Definition dead (z : dimn) : Prop := active z = false /\ d_c z = d_to z.

Lemma dead_move : forall tm z, dead z -> dead (move tm z).
Proof. intros tm z [H1 H2]. split; [exact H1|exact H2]. Qed.

Lemma dead_crosses : forall tm z, dead z -> crosses tm z = false.
Proof. intros tm z [H1 _]. unfold crosses. rewrite H1. reflexivity. Qed.

Lemma dead_tmin : forall k z l, dead z -> tmin (ins k z l) = tmin l.
Proof.
  intros k z l [H _]. unfold tmin, ins. rewrite filter_app. cbn [filter]. rewrite H. rewrite <- filter_app, firstn_skipn. reflexivity.
Qed.

Lemma dead_cross_all : forall tm k z l, dead z -> cross_all tm (ins k z l) = ins k z (cross_all tm l).
Proof. intros tm k z l H. unfold cross_all. rewrite ins_map, (dead_crosses _ _ H). reflexivity. Qed.

Lemma dead_reached : forall k z l, dead z -> reached (ins k z l) = reached l.
Proof.
  intros k z l [_ H]. unfold reached, ins. rewrite forallb_app. cbn [forallb]. rewrite H, Z.eqb_refl. cbn [andb]. rewrite <- forallb_app, firstn_skipn. reflexivity.
Qed.

Lemma dead_cindex : forall k z l, cindex (ins k z l) = ins k (d_c z) (cindex l).
Proof. intros. unfold cindex. apply ins_map. Qed.

Lemma ins_app_l : forall A k (x : A) l m, (k <= length l)%nat -> ins k x (l ++ m) = ins k x l ++ m.
Proof.
  intros A k x l m H. unfold ins. rewrite firstn_app, skipn_app. replace (k - length l)%nat with 0%nat by lia. cbn [firstn skipn]. rewrite app_nil_r, <- app_assoc. reflexivity.
Qed.

Lemma cross_each_done : forall tm k z todo done, (k <= length done)%nat -> cross_each tm (ins k z done) todo = map (ins k (d_c z)) (cross_each tm done todo).
Proof.
  intros tm k z. induction todo as [|d todo IH]; intros done HK; [reflexivity|]. cbn [cross_each]. destruct (crosses tm d).
  - cbn [map]. rewrite <- dead_cindex. f_equal; [f_equal; symmetry; apply ins_app_l; auto|]. rewrite <- IH by (rewrite app_length; lia). f_equal. symmetry. apply ins_app_l. auto.
  - rewrite <- IH by (rewrite app_length; lia). f_equal. symmetry. apply ins_app_l. auto.
Qed.

Lemma ins_app_r : forall A k (x : A) l m, ins (length l + k) x (l ++ m) = l ++ ins k x m.
Proof. intros A k x l m. induction l as [|y l IH]; [reflexivity|]. cbn [length Nat.add app]. rewrite ins_S, IH. reflexivity. Qed.

Lemma cross_each_todo : forall tm k z todo done, dead z -> (k <= length todo)%nat ->
  cross_each tm done (ins k z todo) = map (ins (length done + k) (d_c z)) (cross_each tm done todo).
Proof.
  intros tm k z todo done HZ. revert k done. induction todo as [|d todo IH]; intros k done HK.
  - cbn in HK. assert (k = 0%nat) by lia. subst. rewrite ins_0. cbn [cross_each]. rewrite (dead_crosses _ _ HZ). reflexivity.
  - destruct k as [|k].
    + rewrite ins_0. cbn [cross_each]. rewrite (dead_crosses _ _ HZ). rewrite Nat.add_0_r.
      replace (done ++ [z]) with (ins (length done) z done) by (unfold ins; rewrite firstn_all, skipn_all; reflexivity).
      change (cross_each tm (ins (length done) z done) (d :: todo) = map (ins (length done) (d_c z)) (cross_each tm done (d :: todo))).
      apply cross_each_done. lia.
    + rewrite ins_S. cbn [cross_each]. cbn [length] in HK. destruct (crosses tm d).
      * cbn [map]. f_equal.
        -- rewrite <- dead_cindex. f_equal. rewrite ins_app_r, ins_S. reflexivity.
        -- rewrite IH by lia. rewrite app_length. cbn [length]. replace (length done + 1 + k)%nat with (length done + S k)%nat by lia. reflexivity.
      * rewrite IH by lia. rewrite app_length. cbn [length]. replace (length done + 1 + k)%nat with (length done + S k)%nat by lia. reflexivity.
Qed.

Lemma dead_loop : forall fl fuel k z l, dead z -> (k <= length l)%nat -> line_loop fl fuel (ins k z l) = SpecPathSym.each (ins k (d_c z)) (line_loop fl fuel l).
Proof.
  intros fl. induction fuel as [|fuel IH]; intros k z l HZ HK; [reflexivity|]. cbn [line_loop]. rewrite dead_tmin by auto. destruct (tmin l) as [tm|]; [|reflexivity].
  rewrite dead_cross_all, ins_map by auto. rewrite dead_reached by (apply dead_move; auto).
  set (l' := map (move tm) (cross_all tm l)) in *.
  assert (RW : (if fl then cross_each tm [] (ins k z l) else [cindex (ins k (move tm z) l')]) = map (ins k (d_c z)) (if fl then cross_each tm [] l else [cindex l'])).
  { destruct fl; [apply (cross_each_todo tm k z l []); auto|]. cbn [map]. rewrite dead_cindex. reflexivity. }
  rewrite RW. destruct (reached l'); [reflexivity|]. rewrite IH; [|apply dead_move; auto|unfold l'; rewrite map_length; unfold cross_all; rewrite map_length; auto].
  change (d_c (move tm z)) with (d_c z). destruct (line_loop fl fuel l'); cbn [SpecPathSym.each bind]; auto. rewrite map_app. reflexivity.
Qed.

Lemma mks_ins : forall k x0 x1, length x1 = length x0 -> (k <= length x0)%nat -> mks (ins k 0 x0) (ins k 0 x1) = ins k (mk 0 0) (mks x0 x1).
Proof.
  induction k as [|k IH]; intros [|p x0] [|q x1] HL HK; try discriminate; try reflexivity.
  rewrite !ins_S. cbn [mks]. rewrite ins_S. f_equal. apply IH; cbn in *; lia.
Qed.

Lemma mk_dead : dead (mk 0 0).
Proof. split; reflexivity. Qed.

Lemma line_ins : forall fl fuel k a b, (k <= 2)%nat -> Z.abs a < 2 ^ 31 -> Z.abs b < 2 ^ 31 ->
  line fl fuel [0; 0; 0] (ins k 0 [a; b]) = SpecPathSym.each (ins k 0) (line fl fuel [0; 0] [a; b]).
Proof.
  intros fl fuel k a b HK HA HB. unfold line. cbn [lenZ length]. change (3 <? Z.of_nat 3) with false. change (3 <? Z.of_nat 2) with false. cbn [negb].
  change (3 <? lenZ [0; 0; 0]) with false. change (3 <? lenZ [0; 0]) with false. cbv iota.
  rewrite (line_start' [0; 0] [a; b]) by (auto; cbn [span]; lia).
  rewrite (line_start' [0; 0; 0] (ins k 0 [a; b])); [|auto|rewrite ins_length; reflexivity|destruct k as [|[|[|k]]]; [| | |lia]; cbn [ins firstn skipn app span]; lia].
  rewrite !bind_Ok. replace [0; 0; 0] with (ins k 0 [0; 0]) by (destruct k as [|[|[|k]]]; [| | |lia]; reflexivity).
  rewrite mks_ins by (auto; cbn; lia). rewrite (dead_loop fl fuel k (mk 0 0) (mks [0; 0] [a; b]) mk_dead) by (cbn; lia). change (d_c (mk 0 0)) with 0.
  destruct (line_loop fl fuel (mks [0; 0] [a; b])); cbn [SpecPathSym.each bind]; auto. cbn [map]. rewrite dead_cindex. reflexivity.
Qed.

(** The order of the axes of the three-dimensional array after an axis is inserted. *)
Definition order (k : nat) (shape : list Z) : list nat :=
  match length shape, k with
  | 1%nat, 1%nat => [1%nat; 0%nat; 2%nat]
  | 2%nat, 0%nat => [2%nat; 0%nat; 1%nat]
  | 2%nat, 1%nat => [0%nat; 2%nat; 1%nat]
  | _, _ => [0%nat; 1%nat; 2%nat]
  end.
(** The place of the axis of one pixel before and after. *)
Definition from (k : nat) (shape : list Z) : nat := match length shape, k with 1%nat, 1%nat => 0%nat | _, _ => 2%nat end.
Definition to (k : nat) (shape : list Z) : nat :=
  match length shape, k with 1%nat, 1%nat => 1%nat | 2%nat, 0%nat => 0%nat | 2%nat, 1%nat => 1%nat | _, _ => 2%nat end.

Definition placed (o : list nat) (i j : nat) : Prop :=
  (o = [0; 1; 2] /\ i = 2 /\ j = 2 \/ o = [1; 0; 2] /\ i = 0 /\ j = 1 \/ o = [2; 0; 1] /\ i = 2 /\ j = 0 \/ o = [0; 2; 1] /\ i = 2 /\ j = 1)%nat.

Lemma order_cases : forall k shape, placed (order k shape) (from k shape) (to k shape).
Proof.
  intros k shape. unfold placed, order, from, to. destruct (length shape) as [|[|[|n]]]; [left; auto| | |left; auto]; destruct k as [|[|k]]; try (left; repeat (split; auto); fail).
  - right; left. auto.
  - right; right; left. auto.
  - right; right; right. auto.
Qed.

Lemma placed_perm : forall o i j, placed o i j -> Permutation o (seq 0 3).
Proof.
  intros o i j [[-> _]|[[-> _]|[[-> _]|[-> _]]]]; cbn [seq].
  - apply Permutation_refl.
  - apply perm_swap.
  - apply Permutation_trans with [0; 2; 1]%nat; [apply perm_swap|apply perm_skip; apply perm_swap].
  - apply perm_skip. apply perm_swap.
Qed.

Lemma placed_pick : forall o i j v, placed o i j -> length v = 2%nat -> pick o (ins i 0 v) = ins j 0 v.
Proof.
  intros o i j v H HL. destruct v as [|a [|b [|c v]]]; try discriminate. destruct H as [(-> & -> & ->)|[(-> & -> & ->)|[(-> & -> & ->)|(-> & -> & ->)]]]; reflexivity.
Qed.

Lemma ins_lift : forall k (shape x : list Z), length x = length shape -> (length shape < 3)%nat -> (k <= length shape)%nat -> lift (ins k 0 x) = pick (order k shape) (lift x).
Proof.
  intros k shape x HL H3 HK. unfold order. rewrite <- HL in *. destruct x as [|x0 [|x1 [|x2 x]]]; cbn in H3, HK; try lia; destruct k as [|[|[|k]]]; try lia; reflexivity.
Qed.

Lemma three_ins : forall k (s shape : list Z), length s = length shape -> (length shape < 3)%nat -> (k <= length shape)%nat -> three (ins k 1 s) = pick (order k shape) (three s).
Proof.
  intros k s shape HL H3 HK. unfold order. rewrite <- HL in *. destruct s as [|x0 [|x1 [|x2 x]]]; cbn in H3, HK; try lia; destruct k as [|[|[|k]]]; try lia; reflexivity.
Qed.

(** The axis that moves has one pixel. *)
Lemma three_from : forall k (s shape : list Z), length s = length shape -> (length shape < 3)%nat -> (k <= length shape)%nat -> nth (from k shape) (three s) 0 = 1.
Proof.
  intros k s shape HL H3 HK. unfold from. rewrite <- HL in *. destruct s as [|x0 [|x1 [|x2 x]]]; cbn in H3, HK; try lia; destruct k as [|[|[|k]]]; try lia; reflexivity.
Qed.

Lemma pick_inj : forall o i j x y, placed o i j -> length x = 3%nat -> length y = 3%nat -> pick o x = pick o y -> x = y.
Proof.
  intros o i j x y H Lx Ly E. destruct x as [|x0 [|x1 [|x2 [|x3 x]]]], y as [|y0 [|y1 [|y2 [|y3 y]]]]; try discriminate.
  destruct H as [[-> _]|[[-> _]|[[-> _]|[-> _]]]]; unfold pick in E; cbn [map nth] in E; injection E as -> -> ->; reflexivity.
Qed.

Lemma pick_onto : forall o i j y, placed o i j -> length y = 3%nat -> exists x, length x = 3%nat /\ pick o x = y.
Proof.
  intros o i j y H Ly. destruct y as [|y0 [|y1 [|y2 [|y3 y]]]]; try discriminate.
  destruct H as [[-> _]|[[-> _]|[[-> _]|[-> _]]]].
  - exists [y0; y1; y2]. auto.
  - exists [y1; y0; y2]. auto.
  - exists [y1; y2; y0]. auto.
  - exists [y0; y2; y1]. auto.
Qed.

Lemma movedb_order : forall per o i j s a d b, placed o i j -> length s = 3%nat -> length a = 3%nat -> length d = 3%nat -> length b = 3%nat ->
  movedb per s a d b = movedb per (pick o s) (pick o a) (pick o d) (pick o b).
Proof.
  intros per o i j s a d b H Ls La Ld Lb.
  destruct s as [|s0 [|s1 [|s2 [|s3 s]]]], a as [|a0 [|a1 [|a2 [|a3 a]]]], d as [|d0 [|d1 [|d2 [|d3 d]]]], b as [|b0 [|b1 [|b2 [|b3 b]]]]; try discriminate.
  apply bool_iff. rewrite !movedb_iff. destruct H as [[-> _]|[[-> _]|[[-> _]|[-> _]]]]; unfold pick; cbn [map nth moved]; tauto.
Qed.

Lemma path_order : forall fuel o i j x mode, placed o i j -> length x = 3%nat -> nth i x 0 = 0 -> x <> [0; 0; 0] -> span [0; 0; 0] x < 2 ^ 30 -> (Z.to_nat (span [0; 0; 0]%Z x) < fuel)%nat ->
  (forall rows r, path fuel [0; 0; 0] x mode = Ok rows -> In r rows -> length r = 3%nat) ->
  path fuel [0; 0; 0] (pick o x) mode = SpecPathSym.each (pick o) (path fuel [0; 0; 0] x mode).
Proof.
  intros fuel o i j x mode H HL HX NE SP FU RL. assert (HI : (i <= 2)%nat /\ (j <= 2)%nat) by (unfold placed in H; lia).
  assert (LN : forall fl, (forall rows r, line fl fuel [0; 0; 0] x = Ok rows -> In r rows -> length r = 3%nat) -> line fl fuel [0; 0; 0] (pick o x) = SpecPathSym.each (pick o) (line fl fuel [0; 0; 0] x)).
  { intros fl RL'. assert (EX : exists a b, x = ins i 0 [a; b]).
    { destruct x as [|x0 [|x1 [|x2 [|x3 x]]]]; try discriminate. destruct i as [|[|[|i]]]; cbn [nth] in HX; subst; [exists x1, x2|exists x0, x2|exists x0, x1|lia]; reflexivity. }
    destruct EX as (a & b & ->). rewrite (placed_pick o i j) by auto.
    assert (AB : Z.abs a < 2 ^ 31 /\ Z.abs b < 2 ^ 31).
    { clear -SP HI. change (2 ^ 31) with 2147483648. change (2 ^ 30) with 1073741824 in SP. destruct i as [|[|[|i]]]; [| | |lia]; cbn [ins firstn skipn app span] in SP; lia. }
    destruct AB as [HA HB]. rewrite line_ins in RL' |- * by (auto; lia). rewrite line_ins by (auto; lia).
    destruct (line fl fuel [0; 0] [a; b]) as [rows| | |]; cbn [SpecPathSym.each] in *; auto. f_equal. rewrite map_map. apply map_ext_in. intros r IN.
    symmetry. apply (placed_pick o i j); auto. specialize (RL' _ (ins i 0 r) eq_refl (in_map _ _ _ IN)). rewrite ins_length in RL'. lia. }
  destruct mode; [|apply LN; exact RL|apply LN; exact RL].
  assert (D0 : pick o [0; 0; 0] = [0; 0; 0]) by (destruct H as [[-> _]|[[-> _]|[[-> _]|[-> _]]]]; reflexivity).
  rewrite <- D0 at 1. apply path_axes; auto; [cbn; lia|]. eapply placed_perm; eauto.
Qed.

Lemma walkable_ins : forall mode k roi, walkable mode roi -> walkable mode (ins k 1 roi).
Proof. intros mode k roi H. destruct mode; cbn [walkable] in *; apply ins_Forall; auto; try lia. Qed.

Lemma still_walk : forall k shape c, along_paths shape c -> carried_walk (still shape) shape (ins k 1 shape) c (reshaped_call (ins k 1 shape) c).
Proof.
  intros k shape c H. destruct c; cbn [along_paths carried_walk reshaped_call] in *; try contradiction.
  - destruct H as (H1 & H2 & H3 & H4). repeat (split; [apply still_image; auto|]). split; auto.
    match goal with |- carried_option _ ?m _ => destruct m as [fm|] end; cbn [option_map carried_option]; auto. apply still_mask; auto.
  - split; auto. apply still_image; auto.
Qed.

Lemma thin_walk : forall asrt per var k roi shape c, shapes per roi shape -> (length shape < 3)%nat -> (k <= length shape)%nat -> along_paths shape c ->
  walks_in roi c -> walks_in (ins k 1 roi) c ->
  exists e e', fresh asrt roi per var c = Ok e /\ fresh asrt (ins k 1 roi) per var (reshaped_call (ins k 1 shape) c) = Ok e' /\
    forall r, pixel roi r -> same_at e r e' r.
Proof.
  intros asrt per var k roi shape c HS H3 HK HA HW HW'. pose proof (shapes_ins per k _ _ H3 HS) as HSr.
  destruct (shapes_dims3 _ _ _ HS) as (n0 & n1 & n2 & k0 & k1 & k2 & HD). destruct (shapes_dims3 _ _ _ HSr) as (n0' & n1' & n2' & k0' & k1' & k2' & HD').
  assert (HP : Forall (fun n => 0 < n) shape) by (apply image_pos; apply HS).
  assert (HR : Forall (fun n => 0 < n) roi) by (destruct HS as (_ & _ & H & _); eapply Forall_impl; [|exact H]; cbn beta; intros; lia).
  assert (HLR : length roi = length shape) by (destruct HS as (HL & _); lia).
  assert (HP1 : Forall (fun n => 1 <= n) shape) by (eapply Forall_impl; [|exact HP]; cbn beta; intros; lia).
  destruct (walk_mode _ _ HW) as (mode & HG). pose proof (still_walk k shape c HA) as HC.
  set (o := order k shape) in *. set (i := from k shape) in *. set (j := to k shape) in *. assert (PL : placed o i j) by apply order_cases.
  assert (RK : three (ins k 1 roi) = pick o (three roi)) by (apply three_ins; auto).
  assert (RN : three (ins k 1 shape) = pick o (three shape)) by (apply three_ins; auto).
  assert (R1 : nth i (three roi) 0 = 1) by (apply three_from; auto).
  rewrite (three_eq roi k0 k1 k2), (three_eq (ins k 1 roi) k0' k1' k2') in RK by (apply HD || apply HD').
  rewrite (three_eq roi k0 k1 k2) in R1 by apply HD.
  assert (DE : forall a b d, In [a; b; d] (edge [k0; k1; k2]) <-> In (pick o [a; b; d]) (edge [k0'; k1'; k2'])).
  { intros a b d. clear -PL RK HD HD'. destruct PL as [[-> _]|[[-> _]|[[-> _]|[-> _]]]]; unfold pick in *; cbn [map nth] in *; injection RK as -> -> ->;
      rewrite ?(edge_iff _ _ _ _ _ _ _ _ _ HD), ?(edge_iff _ _ _ _ _ _ _ _ _ HD'); tauto. }
  assert (KS : k0' + k1' + k2' = k0 + k1 + k2).
  { clear -PL RK. destruct PL as [[-> _]|[[-> _]|[[-> _]|[-> _]]]]; unfold pick in *; cbn [map nth] in *; injection RK as -> -> ->; lia. }
  assert (D0 : pick o [0; 0; 0] = [0; 0; 0]) by (clear -PL; destruct PL as [[-> _]|[[-> _]|[[-> _]|[-> _]]]]; reflexivity).
  assert (WK : walkable mode roi) by (eapply walk_walkable; eauto).
  destruct (walk_moved asrt per var roi shape (ins k 1 roi) (ins k 1 shape) _ _ _ _ _ _ _ _ _ _ _ _ (still shape) (pick o) mode c (reshaped_call (ins k 1 shape) c) HS HSr HD HD') as (e & e' & E & E' & S1 & S2 & V); eauto using carried_walks.
  - apply still_matching.
  - intros x y Lx Ly E. eapply pick_inj; eauto.
  - intros x IN. destruct (edge_three _ _ _ x IN) as (a & b & d & ->). apply DE. exact IN.
  - intros y IN. pose proof (edge_length [k0'; k1'; k2'] y eq_refl IN) as LY. destruct (pick_onto _ _ _ y PL LY) as (x & LX & <-).
    exists x. split; auto. destruct x as [|a [|b [|d [|? ?]]]]; try discriminate. apply DE. exact IN.
  - intros x IN. apply (path_for_changed per roi shape n0 n1 n2 k0 k1 k2 n0' n1' n2' k0' k1' k2' (ins k 1 roi) (ins k 1 shape) mode (pick o) x); auto.
    + apply walkable_ins; auto.
    + destruct (edge_three _ _ _ x IN) as (a & b & d & ->). apply DE. exact IN.
    + intros NE SP FU. pose proof (edge_length [k0; k1; k2] x eq_refl IN) as LX. apply (path_order _ _ i j); auto.
      * destruct (edge_three _ _ _ x IN) as (a & b & d & ->). apply (edge_iff _ _ _ _ _ _ _ _ _ HD) in IN. destruct IN as [(Wa & Wb & Wc) _]. unfold within in *.
        assert (PI : i = 0%nat \/ i = 2%nat) by (clear -PL; unfold placed in PL; lia). clear -PI R1 Wa Wb Wc. destruct PI as [-> | ->]; cbn [nth] in *; subst; [change ((1 - 1) / 2) with 0 in Wa; change (1 / 2) with 0 in Wa|change ((1 - 1) / 2) with 0 in Wc; change (1 / 2) with 0 in Wc]; lia.
      * intros rows r ER IR. pose proof (paths_exist _ _ _ _ _ _ _ _ _ mode HD WK x IN) as (EP & H1 & _ & H4). rewrite EP in ER. injection ER as <-.
        destruct (path_for k0 k1 k2 mode x) as [|z rows]; [destruct IR|]. injection H1 as ->. rewrite <- LX. eapply rows_length; eauto.
  - intros d p p' q q' LX [Pp ->] [Pq ->]. rewrite !coords_three; rewrite ?ins_length; try lia; try (apply ins_Forall; auto; lia); try (unfold pixel; rewrite zprod_ins; assumption); auto.
    rewrite !coords_ins by auto. rewrite RN. rewrite !(ins_lift k shape) by (auto; apply coords_length). apply (movedb_order per o i j); auto.
    + rewrite (three_eq shape n0 n1 n2) by apply HD. reflexivity.
    + rewrite <- coords_three; auto; try lia. rewrite coords_length, (three_eq shape n0 n1 n2) by apply HD. reflexivity.
    + rewrite <- coords_three; auto; try lia. rewrite coords_length, (three_eq shape n0 n1 n2) by apply HD. reflexivity.
  - exists e, e'. split; auto. split; auto. intros r Hr. assert (Hr' : pixel (ins k 1 roi) r) by (unfold pixel; rewrite zprod_ins; exact Hr). apply V; auto.
    assert (HKp : Forall (fun n => 1 <= n) roi) by (eapply Forall_impl; [|exact HR]; cbn; intros; lia).
    assert (LO : length (offset roi r) = length roi) by (unfold offset, diff; rewrite map_length, combine_length, coords_length, anchor_length; lia).
    rewrite !offset_three, offset_ins by (rewrite ?ins_length; auto; try lia; apply ins_Forall; auto; lia). apply ins_lift; lia.
Qed.

(** ** Sequences *)

Definition statistic (k : nat) (roi shape : list Z) (c : call) : Prop :=
  two_point shape c \/ along_paths shape c /\ walks_in roi c /\ walks_in (with_axis k 1 roi) c.

Lemma stat_reshaped : forall shape c, stat_of (reshaped_call shape c) = stat_of c.
Proof. intros shape c. destruct c; reflexivity. Qed.

Lemma thin_sequence : forall asrt per var k roi cs shapes', Forall (fun n => 1 <= n < 2 ^ 62) roi -> (length roi < 3)%nat -> (k <= length roi)%nat -> one_measure cs ->
  Forall2 (fun c shape => shapes per roi shape /\ statistic k roi shape c) cs shapes' ->
  exists e0 e0' e e', ensemble asrt roi per var = Ok e0 /\ ensemble asrt (with_axis k 1 roi) per var = Ok e0' /\
    run asrt cs e0 = Ok e /\ run asrt (map (fun x => reshaped_call (with_axis k 1 (snd x)) (fst x)) (combine cs shapes')) e0' = Ok e' /\
    forall r, pixel roi r -> pixel (with_axis k 1 roi) r /\ same_at e r e' r.
Proof.
  intros asrt per var k roi cs shapes' HR H3 HK HM HF. change (with_axis k 1 roi) with (ins k 1 roi).
  assert (P1 : Forall (fun n => 1 <= n) roi) by (eapply Forall_impl; [|exact HR]; cbn beta; intros; lia).
  destruct (sequences_same asrt roi (ins k 1 roi) per var eq cs (map (fun x => reshaped_call (with_axis k 1 (snd x)) (fst x)) (combine cs shapes'))) as (e0 & e0' & e & e' & E0 & E0' & E & E' & V); auto; try (rewrite ins_length; lia); try lia.
  - apply ins_Forall; auto; lia.
  - clear HM. induction HF as [|c shape cs shapes' [HS HC] HF IH]; cbn [combine map]; constructor; auto. split; [apply stat_reshaped|]. cbn [fst snd].
    assert (HLR : length roi = length shape) by (destruct HS as (HL & _); lia).
    assert (X : exists e e', fresh asrt roi per var c = Ok e /\ fresh asrt (ins k 1 roi) per var (reshaped_call (ins k 1 shape) c) = Ok e' /\ forall r, pixel roi r -> same_at e r e' r).
    { destruct HC as [HC|(HC & W & W')]; [apply thin_two_point|apply thin_walk]; auto; lia. }
    destruct X as (e & e' & E & E' & V). exists e, e'. split; auto. split; auto. intros r r' Hr _ <-. auto.
  - exists e0, e0', e, e'. do 4 (split; [assumption|]). intros r Hr. assert (Hr' : pixel (ins k 1 roi) r) by (unfold pixel; rewrite zprod_ins; exact Hr). split; auto.
Qed.

(** ** Clusters *)

Lemma ins_inj : forall A k (x : A) l m, length l = length m -> ins k x l = ins k x m -> l = m.
Proof.
  induction k as [|k IH]; intros x l m HL H; [rewrite !ins_0 in H; injection H; auto|].
  destruct l as [|a l], m as [|b m]; try discriminate; auto. rewrite !ins_S in H. injection H as -> H. f_equal. eapply IH; eauto.
Qed.

Lemma face_ins : forall per k shape a b, length a = length shape -> length b = length shape ->
  (face per (ins k 1 shape) (ins k 0 a) (ins k 0 b) <-> face per shape a b \/ per = true /\ a = b).
Proof.
  intros per. induction k as [|k IH]; intros shape a b HA HB.
  - rewrite !ins_0. cbn [face]. destruct per.
    + rewrite !Z.mod_1_r. intuition auto.
    + split; [intros [[_ H]|[H _]]; [auto|lia]|intros [H|[H _]]; [auto|discriminate]].
  - destruct shape as [|n shape], a as [|x a], b as [|y b]; try discriminate.
    + cbn. destruct per; [intuition auto|]. split; [intros [[_ []]|[H _]]; lia|intros [[]|[H _]]; discriminate].
    + rewrite !ins_S. cbn [face]. rewrite IH by (cbn in *; lia). split.
      * intros [[-> [H|[-> ->]]]|[H1 H2]]; auto. left. right. split; auto. apply ins_inj in H2; auto. cbn in *; lia.
      * intros [[[-> H]|[H ->]]|[-> H]]; auto. injection H as -> ->. auto.
Qed.

Lemma pixel_pos : forall shape p, Forall (fun n => 0 <= n) shape -> pixel shape p -> Forall (fun n => 0 < n) shape.
Proof.
  unfold pixel. intros shape p H Hp. assert (Z0 : 0 < zprod shape) by lia. clear Hp p. induction H as [|n shape H HF IH]; constructor; cbn [zprod] in Z0.
  - destruct (Z.eq_dec n 0) as [->|]; lia.
  - apply IH. assert (0 <= zprod shape) by (clear -HF; induction HF; cbn [zprod]; nia). destruct (Z.eq_dec (zprod shape) 0) as [E|]; [rewrite E in Z0|]; lia.
Qed.

Lemma face_neighbour_ins : forall per k shape p q, (k <= length shape)%nat -> Forall (fun n => 0 <= n) shape -> pixel shape p -> pixel shape q ->
  (face_neighbour per (ins k 1 shape) p q <-> face_neighbour per shape p q \/ per = true /\ p = q).
Proof.
  intros per k shape p q HK HN Hp Hq. pose proof (pixel_pos _ _ HN Hp) as HP. unfold face_neighbour. rewrite !coords_ins by auto.
  rewrite face_ins by apply coords_length.
  assert (P' : pixel (ins k 1 shape) p /\ pixel (ins k 1 shape) q) by (unfold pixel; rewrite zprod_ins; auto).
  assert (CI : coords shape p = coords shape q <-> p = q) by (split; [apply coords_inj; auto|intros ->; auto]). tauto.
Qed.

Lemma linked_same : forall (adj adj' : Z -> Z -> Prop) (A : Z -> Prop), (forall x y, A x -> A y -> adj x y -> adj' x y \/ x = y) ->
  forall p q, linked adj A p q -> linked adj' A p q.
Proof.
  intros adj adj' A H p q L. induction L as [p Ap|p x q Ap HX L IH]; [constructor; auto|].
  assert (Ax : A x) by (inversion L; auto). destruct (H p x Ap Ax HX) as [HX'| ->]; [eapply linked_step; eauto|exact IH].
Qed.

Lemma thin_clusters : forall asrt shape img per k, good_shape shape -> (length shape < 3)%nat -> (k <= length shape)%nat -> lenZ img = zprod shape ->
  exists lab, clusters asrt shape img per = Ok lab /\ clusters asrt (with_axis k 1 shape) img per = Ok lab.
Proof.
  intros asrt shape img per k HG H3 HK HL. change (with_axis k 1 shape) with (ins k 1 shape).
  assert (HG' : good_shape (ins k 1 shape)).
  { destruct HG as (G1 & G2 & G3). split; [destruct k, shape; discriminate|]. split; [apply ins_Forall; auto; lia|]. rewrite zprod_ins. exact G3. }
  destruct (clusters_ok asrt shape img per HG) as (lab & E & L & Z1 & C1 & N1 & N2 & N3); auto; try lia.
  destruct (clusters_ok asrt (ins k 1 shape) img per HG') as (lab' & E' & L' & Z2 & C2 & M1 & M2 & M3); auto; try (rewrite ins_length; lia); try (rewrite zprod_ins; auto).
  exists lab. split; auto. rewrite E'. f_equal. unfold first_of, pixel in *. rewrite zprod_ins in *. symmetry.
  apply list_ext_zn; [unfold lenZ in *; lia|]. rewrite L. intros p Hp. revert p Hp. fold (pixel shape).
  apply (clusters_determined shape lab lab').
  - intros l [-> | ->]; [exact (conj N2 (conj N1 N3))|exact (conj M2 (conj M1 M3))].
  - intros p Hp. rewrite Z1, Z2 by auto. tauto.
  - intros p q Hp Hq. destruct (Z.eq_dec (zn img p) 0) as [X|X].
    { apply Z1 in X as Y; auto. apply Z2 in X as Y'; auto. rewrite Y, Y'. pose proof (Z1 q Hq). pose proof (Z2 q Hq). split; intros H1; symmetry; symmetry in H1; tauto. }
    destruct (Z.eq_dec (zn img q) 0) as [X'|X'].
    { apply Z1 in X' as Y; auto. apply Z2 in X' as Y'; auto. rewrite Y, Y'. pose proof (Z1 p Hp). pose proof (Z2 p Hp). tauto. }
    rewrite C1, C2 by auto. destruct HG as (_ & HN & _). split; apply linked_same; intros x y [Ax _] [Ay _] HXY.
    + left. apply face_neighbour_ins; auto.
    + apply face_neighbour_ins in HXY; auto. tauto.
Qed.

(** ** Dilation *)

Lemma moved_ins_inv : forall k s a d b, length a = length s -> length b = length s -> moved false (ins k 1 s) (ins k 0 a) d (ins k 0 b) ->
  exists d0, d = ins k 0 d0 /\ length d0 = length s /\ moved false s a d0 b.
Proof.
  induction k as [|k IH]; intros s a d b HA HB M.
  - rewrite !ins_0 in M. destruct d as [|t d]; cbn [moved] in M; [tauto|]. destruct M as [M0 M]. exists d. rewrite ins_0. split; [f_equal; lia|]. split; auto.
    rewrite <- HA. clear -M. revert a d b M. induction s as [|n s IH]; intros [|x a] [|t d] [|y b] M; cbn [moved] in M; try tauto. cbn [length]. f_equal. eapply IH; apply M.
  - destruct s as [|n s], a as [|x a], b as [|y b]; try discriminate.
    + change (moved false [1] [0] d [0]) in M. destruct d as [|t [|u d]]; cbn [moved] in M; try tauto. destruct M as [M _]. exists []. split; [cbn; f_equal; lia|]. split; auto. exact I.
    + rewrite !ins_S in M. destruct d as [|t d]; cbn [moved] in M; [tauto|]. destruct M as [M0 M]. destruct (IH s a d b) as (d0 & -> & L0 & M1); cbn in *; try lia; auto.
      exists (t :: d0). cbn [length moved]. auto.
Qed.

Lemma moved_ins : forall per k s a d b, length a = length s -> length d = length s -> length b = length s ->
  (moved per (ins k 1 s) (ins k 0 a) (ins k 0 d) (ins k 0 b) <-> moved per s a d b).
Proof.
  intros per k s a d b HA HD HB. rewrite <- !movedb_iff. destruct (movedb_ins per k s a d b) as [-> |H]; [tauto|lia].
Qed.

Lemma kernel_offset_ins : forall k ks kv d, (k <= length ks)%nat -> Forall (fun n => 0 < n) ks ->
  (kernel_offset (ins k 1 ks) kv d <-> exists d0, d = ins k 0 d0 /\ length d0 = length ks /\ kernel_offset ks kv d0).
Proof.
  intros k ks kv d HK HP. assert (LA : length (anchor ks) = length ks) by (unfold anchor; apply map_length). unfold kernel_offset. split.
  - intros (r & Hr & V & M). assert (Hr' : pixel ks r) by (unfold pixel in *; rewrite zprod_ins in Hr; exact Hr).
    rewrite anchor_ins, coords_ins in M by auto. destruct (moved_ins_inv k ks (anchor ks) d (coords ks r)) as (d0 & -> & L0 & M0); auto using coords_length. eauto 8.
  - intros (d0 & -> & L0 & r & Hr & V & M). exists r. split; [unfold pixel in *; rewrite zprod_ins; exact Hr|]. split; auto. rewrite anchor_ins, coords_ins by auto. apply moved_ins; auto using coords_length.
Qed.

Lemma kernel_step_ins : forall per k shape ks kv p q, (k <= length shape)%nat -> length ks = length shape -> Forall (fun n => 0 < n) shape -> Forall (fun n => 0 < n) ks ->
  (kernel_step per (ins k 1 shape) (ins k 1 ks) kv p q <-> kernel_step per shape ks kv p q).
Proof.
  intros per k shape ks kv p q HK HL HP HPk. unfold kernel_step. unfold pixel at 1 2. rewrite !zprod_ins. fold (pixel shape p). fold (pixel shape q). split.
  - intros (Hp & Hq & d & HD & M). split; auto. split; auto. apply kernel_offset_ins in HD; auto; [|lia]. destruct HD as (d0 & -> & L0 & HD). exists d0. split; auto.
    rewrite !coords_ins in M by auto. apply moved_ins in M; auto using coords_length. lia.
  - intros (Hp & Hq & d & HD & M). split; auto. split; auto. exists (ins k 0 d).
    assert (LD : length d = length ks).
    { destruct HD as (r & _ & _ & M'). clear -M'. revert M'. generalize (anchor ks) (coords ks r). revert d. induction ks as [|n ks IH]; intros [|t d] [|x a] [|y b] M; cbn [moved] in M; try tauto. cbn [length]. f_equal. eapply IH. apply M. }
    split; [apply kernel_offset_ins; eauto; lia|]. rewrite !coords_ins by auto. apply moved_ins; auto using coords_length. lia.
Qed.

Lemma reaches_iff : forall (adj adj' : Z -> Z -> Prop) (S S' : Z -> Prop), (forall p q, adj p q -> adj' p q) -> (forall p, S p -> S' p) ->
  forall n p, SpecDilate.reaches adj S n p -> SpecDilate.reaches adj' S' n p.
Proof. intros adj adj' S S' H HS n p R. induction R; [apply SpecDilate.reaches_start; auto|eapply SpecDilate.reaches_step; eauto]. Qed.

Lemma thin_dilate : forall asrt shape f ks kv n per k, dilatable_n per shape f ks kv -> 0 <= n -> (length shape < 3)%nat -> (k <= length shape)%nat ->
  exists ret ret', dilate_n asrt shape f ks kv n per = Ok ret /\ dilate_n asrt (with_axis k 1 shape) f (with_axis k 1 ks) kv n per = Ok ret' /\ lenZ ret' = lenZ ret /\
    forall p, pixel shape p -> (zn ret p <> 0 <-> zn ret' p <> 0).
Proof.
  intros asrt shape f ks kv n per k HD Hn H3 HK. change (with_axis k 1 shape) with (ins k 1 shape). change (with_axis k 1 ks) with (ins k 1 ks).
  destruct (dilate_n_ok asrt shape f ks kv n per HD Hn) as (ret & E & L & V).
  assert (HD' : dilatable_n per (ins k 1 shape) f (ins k 1 ks) kv).
  { destruct HD as (_ & (I1 & I2) & HL & (K1 & K2) & HV & HF & HB). split; [rewrite ins_length; lia|]. split; [split; [apply ins_Forall; auto; lia|rewrite zprod_ins; auto]|].
    split; [rewrite !ins_length; lia|]. split; [split; [apply ins_Forall; auto; lia|rewrite zprod_ins; auto]|]. split; auto. split; auto. intros HP. apply half_fits_ins; auto. }
  destruct (dilate_n_ok asrt (ins k 1 shape) f (ins k 1 ks) kv n per HD' Hn) as (ret' & E' & L' & V').
  exists ret, ret'. split; auto. split; auto. split; [lia|]. intros p Hp.
  destruct HD as (_ & (I1 & I2) & HL & (K1 & K2) & _).
  assert (P1 : Forall (fun n => 0 < n) shape) by (eapply Forall_impl; [|exact I1]; cbn beta; intros; lia).
  assert (P2 : Forall (fun n => 0 < n) ks) by (eapply Forall_impl; [|exact K1]; cbn beta; intros; lia).
  assert (PX : forall x, pixel (ins k 1 shape) x <-> pixel shape x) by (intros; unfold pixel; rewrite zprod_ins; tauto).
  rewrite V by auto. rewrite V' by (apply PX; auto). split; apply reaches_iff.
  - intros x y. apply kernel_step_ins; auto.
  - intros x. rewrite PX. auto.
  - intros x y. apply kernel_step_ins; auto.
  - intros x. rewrite PX. auto.
Qed.

Lemma thin_W2c : exists roi shape cl ce f e e' r, shapes true roi shape /\ is_image shape cl /\ is_image shape ce /\ is_image shape f /\
  walks_in roi (CallW2c cl ce f None Bresenham) /\ shapes true (with_axis 0 1 roi) (with_axis 0 1 shape) /\ coverable Bresenham (with_axis 0 1 roi) /\
  fresh true roi true true (CallW2c cl ce f None Bresenham) = Ok e /\
  fresh true (with_axis 0 1 roi) true true (reshaped_call (with_axis 0 1 shape) (CallW2c cl ce f None Bresenham)) = Ok e' /\
  pixel roi r /\ result_at e r = Exact 1%Qc /\ result_at e' r = Exact 0%Qc.
Proof.
  exists [3; 5], [3; 5], (mkimg [3; 5] [0;0;0;0;0; 0;0;1;1;0; 0;0;0;0;0]), (mkimg [3; 5] [0;0;0;0;0; 0;0;1;0;0; 0;0;0;0;0]), (mkimg [3; 5] (map zq [0;0;0;0;0; 0;0;1;1;1; 0;0;0;0;0])).
  assert (HS : shapes true [3; 5] [3; 5]). { split; [reflexivity|]. split; [cbn; lia|]. split; [repeat constructor; lia|]. split; [repeat constructor; lia|]. intros _. vm_compute. repeat split; discriminate. }
  eexists _, _, 8. split; [exact HS|]. split; [split; reflexivity|]. split; [split; reflexivity|]. split; [split; reflexivity|].
  split; [split; [repeat constructor; lia|exact I]|]. split; [apply shapes_ins; auto; cbn; lia|]. split; [repeat constructor; lia|].
  split; [vm_compute; reflexivity|]. split; [vm_compute; reflexivity|]. split; [unfold pixel; cbn; lia|].
  split; vm_compute; apply f_equal; apply Qc_is_canon; reflexivity.
Qed.

Lemma thin_default : exists shape f ret ret', image shape f /\ dilate_default_n true shape f 1 false = Ok ret /\ dilate_default_n true (with_axis 0 1 shape) f 1 false = Ok ret' /\
  exists p, pixel shape p /\ zn ret p = 0 /\ zn ret' p <> 0.
Proof.
  exists [3; 3], [0;0;0; 0;1;0; 0;0;0]. do 2 eexists. split; [split; [repeat constructor; lia|reflexivity]|]. split; [vm_compute; reflexivity|]. split; [vm_compute; reflexivity|].
  exists 0. split; [unfold pixel; cbn; lia|]. split; [reflexivity|discriminate].
Qed.
