(** * EnsembleDistFloatProofs: distances along an axis, in floating point *)

From Coq Require Import ZArith QArith Qcanon List Bool Lia Reals Lra.
From Flocq Require Import Core BinarySingleNaN.
From Verif Require Import Base BaseLemmas Array3 Array3Lemmas Path SpecCluster SpecDilate SpecPath DilateTop Double Ensemble SpecEnsemble
  EnsembleLin EnsembleWindow EnsembleTop EnsembleDist EnsembleFloat SpecDouble DoubleProofs EnsembleFloatProofs EnsembleFloatMean DoubleError
  EnsembleDistFloat SpecDistFloat.
Import ListNotations.
Open Scope Z_scope.

Local Notation rnd := (round radix2 (FLT_exp (-1074) 53) ZnearestE).

(** ** What a call leaves alone *)

Definition fframe (e e' : fens) : Prop := f_roi e' = f_roi e /\ same_dims (f_first e) (f_first e').

Lemma fframe_refl : forall e, fframe e e.
Proof. intros e. repeat split. Qed.
Lemma fframe_trans : forall a b c, fframe a b -> fframe b c -> fframe a c.
Proof. unfold fframe, same_dims. intuition congruence. Qed.

Lemma fincr_dims : forall m a b c v m', fincr m a b c v = Ok m' -> same_dims m m'.
Proof.
  intros m a b c v m' H. unfold fincr in H. cbv zeta in H. destruct (vget _ _); cbn [bind] in H; try discriminate.
  destruct (vset _ _ _); cbn [bind] in H; try discriminate. inversion H; subst. repeat split.
Qed.

Lemma fL_walk_dims : forall P F x rows a b, fL_walk P F x rows a = Ok b -> same_dims a b.
Proof.
  intros P F [[h i] j] rows. destruct P as [[[p0 q0] [p1 q1]] [p2 q2]].
  induction rows as [|r rows IH]; intros a b H; cbn [fL_walk] in H; [inversion H; subst; repeat split|].
  destruct r as [|dh [|di [|dj [|]]]]; try discriminate.
  destruct (aget _ _ _ _); cbn [bind] in H; try discriminate. destruct (_ =? 0); [inversion H; subst; repeat split|].
  destruct (fincr _ _ _ _ _) eqn:E; cbn [bind] in H; try discriminate. apply fincr_dims in E. apply IH in H.
  unfold same_dims in *. intuition congruence.
Qed.

Lemma fL_stamp_frame : forall P F n mode e s e', fL_stamp P F n mode e s = Ok e' -> fframe e e'.
Proof.
  intros P F n mode e s e' H. unfold fL_stamp in H. unbind H. inversion H; subst. unfold fframe. cbn.
  apply foldM_keep with (R := same_dims) in Heqr0; [|repeat split|unfold same_dims; intuition congruence|intros; eapply fL_walk_dims; eauto].
  auto.
Qed.

Definition fsame_dims2 (a b : arr double * arr double) : Prop := same_dims (fst a) (fst b).

Lemma fW2c_walk_dims : forall P C Fm F label x all rest q a b, fW2c_walk P C Fm F label x all rest q a = Ok b -> fsame_dims2 a b.
Proof.
  intros P C Fm F label [[h i] j] all rest. destruct P as [[[p0 q0] [p1 q1]] [p2 q2]].
  induction rest as [|r rest IH]; intros q a b H; cbn [fW2c_walk] in H; [inversion H; subst; repeat split|].
  destruct r as [|dh [|di [|dj [|]]]]; try discriminate.
  destruct (aget C _ _ _); cbn [bind] in H; try discriminate.
  match type of H with bind ?r _ = Ok _ => destruct r as [fn| | |] eqn:E; cbn [bind] in H; try discriminate end.
  apply IH in H. assert (D : fsame_dims2 a fn).
  { unbind E; try (inversion E; subst; repeat split; fail). destruct a2 as [|th [|ti [|tj [|]]]]; try discriminate. unbind E.
    inversion E; subst. unfold fsame_dims2. cbn [fst]. eapply fincr_dims; eauto. }
  unfold fsame_dims2, same_dims in *. intuition congruence.
Qed.

Lemma fW2c_stamp_frame : forall P C Ce Fm F mode e s e', fW2c_stamp P C Ce Fm F mode e s = Ok e' -> fframe e e'.
Proof.
  intros P C Ce Fm F mode e s e' H. unfold fW2c_stamp in H. unbind H. inversion H; subst. unfold fframe. cbn.
  apply foldM_keep with (R := fsame_dims2) in Heqr0; [|repeat split|unfold fsame_dims2, same_dims; intuition congruence|].
  - auto.
  - intros x p y HX. unfold fW2c_point in HX. unbind HX; try (inversion HX; subst; repeat split; fail). eapply fW2c_walk_dims; eauto.
Qed.

Lemma floop_frame : forall A (F : fens -> A -> res fens) l e s e',
  (forall a x b, F a x = Ok b -> fframe a b) -> foldM F l (fset_stat e s) = Ok e' -> fframe e e'.
Proof.
  intros A F l e s e' HF H. apply fframe_trans with (fset_stat e s); [repeat split|].
  eapply foldM_keep; [apply fframe_refl|apply fframe_trans|exact HF|exact H].
Qed.

Lemma fadd_frame : forall L asrt e c e', fadd L asrt e c = Ok e' -> fframe e e'.
Proof.
  intros L asrt e c e' H. destruct c; cbn [fadd] in H.
  - unfold fmean in H. unbind H. inversion H; subst. unfold fframe. cbn. unfold fplus0 in Heqr1. unbind Heqr1. inversion Heqr1; subst. repeat split.
  - unfold fmean_masked in H. unbind H. inversion H; subst. unfold fframe. cbn. unfold fplus0 in Heqr3. unbind Heqr3. inversion Heqr3; subst. repeat split.
  - unfold fS2 in H. unbind H. eapply floop_frame; [|exact H].
    intros x p y HX. unfold fS2_point in HX. unbind HX; inversion HX; subst; try (repeat split; fail); destruct (deq _ _); repeat split.
  - unfold fC2 in H. unbind H. eapply floop_frame; [|exact H].
    intros x p y HX. unfold fC2_point in HX. unbind HX; inversion HX; subst; try (repeat split; fail); destruct (_ =? 0); repeat split.
  - unfold fW2 in H. unbind H. eapply floop_frame; [|exact H].
    intros x p y HX. unfold fW2_point in HX. unbind HX; inversion HX; subst; try (repeat split; fail); destruct (deq _ _); repeat split.
  - unfold fW2c in H. unbind H. eapply floop_frame; [|exact H]. intros. eapply fW2c_stamp_frame; eauto.
  - unfold fheightheight in H. unbind H. eapply floop_frame; [|exact H].
    intros x p y HX. unfold fhh_point in HX. unbind HX; inversion HX; subst; repeat split.
  - unfold fL in H. unbind H. eapply floop_frame; [|exact H]. intros. eapply fL_stamp_frame; eauto.
Qed.

(** Shape of the data. *)
Definition has_shape (roi : list Z) (k0 k1 k2 : Z) (e : fens) : Prop :=
  f_roi e = roi /\ d0 (f_first e) = k0 /\ d1 (f_first e) = k1 /\ d2 (f_first e) = k2.

Lemma freachable_shape : forall L asrt roi per var e, freachable L asrt roi per var e ->
  exists k0 k1 k2, shape3 roi = Ok (k0, k1, k2) /\ has_shape roi k0 k1 k2 e.
Proof.
  intros L asrt roi per var e (e0 & cs & H0 & H). unfold fensemble in H0. destruct (assertb _ _); cbn [bind] in H0; try discriminate.
  destruct (shape3 roi) as [[[k0 k1] k2]| | |]; cbn [bind] in H0; try discriminate. inversion H0; subst. exists k0, k1, k2. split; auto.
  apply foldM_keep with (R := fframe) in H; [|apply fframe_refl|apply fframe_trans|intros; eapply fadd_frame; eauto].
  destruct H as (R & D0 & D1 & D2). unfold has_shape. auto.
Qed.

(** ** Whole numbers *)

Definition whole (z : Z) (x : double) : Prop := is_finite x = true /\ B2R x = IZR z.

Lemma rnd_int : forall z, Z.abs z <= 2 ^ 53 -> rnd (IZR z) = IZR z.
Proof. intros z H. exact (int_round z H). Qed.
Lemma int_small : forall z, Z.abs z <= 2 ^ 53 -> (Rabs (IZR z) <= bpow radix2 1000)%R.
Proof.
  intros z H. rewrite <- abs_IZR. apply Rle_trans with (bpow radix2 53); [rewrite <- IZR_pow by lia; apply IZR_le; lia|apply bpow_le; lia].
Qed.

Lemma whole_dz : forall z, Z.abs z <= 2 ^ 53 -> whole z (dz z).
Proof. intros z H. destruct (exactly_value _ _ _ (exactly_dz z H)) as [F V]. split; auto. rewrite V. apply Q2R_zq. Qed.
Lemma whole_plus : forall a b x y, whole a x -> whole b y -> Z.abs (a + b) <= 2 ^ 53 -> whole (a + b) (dplus x y).
Proof.
  intros a b x y [Fx Vx] [Fy Vy] H. assert (E : (B2R x + B2R y)%R = IZR (a + b)) by (rewrite Vx, Vy, plus_IZR; reflexivity).
  destruct (sum_of x y Fx Fy) as [F V]; [rewrite E; apply int_small; exact H|]. split; auto. rewrite V, E. apply rnd_int. exact H.
Qed.
Lemma whole_minus : forall a b x y, whole a x -> whole b y -> Z.abs (a - b) <= 2 ^ 53 -> whole (a - b) (dminus x y).
Proof.
  intros a b x y [Fx Vx] [Fy Vy] H. assert (E : (B2R x - B2R y)%R = IZR (a - b)) by (rewrite Vx, Vy, minus_IZR; reflexivity).
  destruct (difference_of x y Fx Fy) as [F V]; [rewrite E; apply int_small; exact H|]. split; auto. rewrite V, E. apply rnd_int. exact H.
Qed.
Lemma whole_times : forall a b x y, whole a x -> whole b y -> Z.abs (a * b) <= 2 ^ 53 -> whole (a * b) (dtimes x y).
Proof.
  intros a b x y [Fx Vx] [Fy Vy] H. assert (E : (B2R x * B2R y)%R = IZR (a * b)) by (rewrite Vx, Vy, mult_IZR; reflexivity).
  destruct (product_of x y Fx Fy) as [F V]; [rewrite E; apply int_small; exact H|]. split; auto. rewrite V, E. apply rnd_int. exact H.
Qed.
Lemma whole_div : forall a b c x y, whole a x -> whole b y -> a = b * c -> b <> 0 -> Z.abs c <= 2 ^ 53 -> whole c (ddiv x y).
Proof.
  intros a b c x y [Fx Vx] [Fy Vy] E B H. assert (B' : IZR b <> 0%R) by (apply not_0_IZR; exact B).
  assert (Q : (B2R x / B2R y)%R = IZR c) by (rewrite Vx, Vy, E, mult_IZR; field; exact B').
  destruct (quotient_of x y Fx) as [F V]; [rewrite Vy; exact B'|rewrite Q; apply int_small; exact H|]. split; auto. rewrite V, Q. apply rnd_int. exact H.
Qed.

Lemma flinspace_whole : forall w n k, 1 <= n <= 2 ^ 53 -> 0 <= k < n ->
  whole (k - (n - 1) / 2) (flinspace w (fst (pad_axis n)) (snd (pad_axis n)) n k).
Proof.
  intros w n k Hn Hk. pose proof (padding n ltac:(lia)) as [HP _]. assert (E : fst (pad_axis n) = (n - 1) / 2) by (rewrite pad_axis_eq by lia; reflexivity).
  set (p := fst (pad_axis n)) in *. set (q := snd (pad_axis n)) in *. assert (B : 0 <= 2 * p <= n - 1) by (rewrite E; Z.to_euclidean_division_equations; lia).
  unfold flinspace. cbv zeta. set (start := dtimes _ _). assert (S : whole (- p) start).
  { replace (- p) with (-1 * p) by lia. apply whole_times; [apply whole_dz; lia|apply whole_dz; lia|lia]. }
  set (step := ddiv _ _). assert (T : whole (Z.min 1 (n - 1)) step).
  { apply whole_div with (q - - p) (Z.max 1 (n - 1)); [apply whole_minus; [apply whole_dz; lia|exact S|lia]|apply whole_dz; lia|lia|lia|lia]. }
  clearbody start step. rewrite <- E. destruct w.
  - replace (k - p) with (- p + k) by lia. apply whole_plus; [exact S| |lia].
    replace k with (Z.min 1 (n - 1) * k) at 1 by nia. apply whole_times; [exact T|apply whole_dz; lia|nia].
  - assert (I : forall j, Z.of_nat j < n -> whole (- p + Z.of_nat j) (Nat.iter j (fun x => dplus x step) start)).
    { induction j as [|j IH]; intros Hj; [rewrite Z.add_0_r; exact S|]. cbn [Nat.iter nat_rect].
      replace (- p + Z.of_nat (Datatypes.S j)) with (- p + Z.of_nat j + Z.min 1 (n - 1)) by lia. apply whole_plus; [apply IH; lia|exact T|lia]. }
    specialize (I (Z.to_nat k)). rewrite Z2Nat.id in I by lia. replace (k - p) with (- p + k) by lia. apply I. lia.
Qed.

(** ** Along an axis *)

Lemma whole_eq : forall a b x, whole a x -> a = b -> whole b x.
Proof. intros a b x H <-. exact H. Qed.

Lemma fdistance_axis_ok : forall w asrt roi k0 k1 k2 e axis, has_shape roi k0 k1 k2 e -> shape3 roi = Ok (k0, k1, k2) ->
  Forall (fun n => 1 <= n <= 2 ^ 53) roi -> 0 <= axis < lenZ roi ->
  exists d, fdistance_axis w asrt e axis = Ok d /\ lenZ d = zprod roi /\
    forall r, pixel roi r -> whole (nth (Z.to_nat axis) (offset roi r) 0) (dn d r).
Proof.
  intros w asrt roi k0 k1 k2 e axis (HR & A0 & A1 & A2) HK HF HA. unfold fdistance_axis. rewrite HR. unfold f_pad.
  replace (axis <? lenZ roi) with true by lia. replace (assertb asrt true) with (Ok tt) by (destruct asrt; reflexivity). rewrite bind_Ok.
  rewrite A0, A1, A2. clear A0 A1 A2. unfold pad_width. cbv zeta. unfold lenZ in *.
  assert (TL : forall f, 0 <= k0 -> 0 <= k1 -> 0 <= k2 -> lenZ (dat (tab k0 k1 k2 (f : Z -> Z -> Z -> double))) = k0 * k1 * k2).
  { intros f H0 H1 H2. apply (tab_dims double k0 k1 k2 f H0 H1 H2). } unfold lenZ in TL.
  destruct roi as [|a [|b [|c [|? ?]]]]; cbn [shape3] in HK; try discriminate HK; injection HK as E0 E1 E2; subst k0 k1 k2;
    repeat match goal with H : Forall _ (_ :: _) |- _ => inversion H; clear H; subst end; cbn [length] in *; change (Z.of_nat 1) with 1 in *; change (Z.of_nat 2) with 2 in *; change (Z.of_nat 3) with 3 in *.
  - lia.
  - assert (axis = 0) by lia. subst. change (atleast_3d_axis 1 0) with 1. cbn [Z.to_nat nth]. eexists. split; [reflexivity|]. split; [rewrite TL by lia; cbn [zprod]; lia|].
    intros r Hr. unfold pixel in Hr. cbn [zprod] in Hr. unfold dn. rewrite nth_tab by lia. cbn beta.
    eapply whole_eq; [apply flinspace_whole; [assumption|rewrite Z.div_1_r, Z.mod_small; lia]|].
    unfold offset, diff, anchor. cbn [coords zprod map combine nth fst snd]. rewrite Z.div_1_r, Z.mod_small by lia. reflexivity.
  - assert (C : axis = 0 \/ axis = 1) by lia. destruct C as [-> | ->].
    + change (atleast_3d_axis 2 0) with 0. cbn [Z.to_nat nth]. eexists. split; [reflexivity|]. split; [rewrite TL by lia; cbn [zprod]; lia|].
      intros r Hr. unfold pixel in Hr. cbn [zprod] in Hr. unfold dn. rewrite nth_tab by lia. cbn beta.
      eapply whole_eq; [apply flinspace_whole; [assumption|split; [apply Z.div_pos; lia|apply Z.div_lt_upper_bound; lia]]|].
      unfold offset, diff, anchor. cbn [coords zprod map combine nth fst snd]. reflexivity.
    + change (atleast_3d_axis 2 1) with 1. cbn [Z.to_nat nth]. eexists. split; [reflexivity|]. split; [rewrite TL by lia; cbn [zprod]; lia|].
      intros r Hr. unfold pixel in Hr. cbn [zprod] in Hr. unfold dn. rewrite nth_tab by lia. cbn beta.
      eapply whole_eq; [apply flinspace_whole; [assumption|apply Z.mod_pos_bound; lia]|].
      unfold offset, diff, anchor. cbn [coords zprod map combine nth fst snd]. rewrite Z.mul_1_r, !Z.div_1_r. reflexivity.
  - assert (C : axis = 0 \/ axis = 1 \/ axis = 2) by lia. destruct C as [-> | [-> | ->]].
    + change (atleast_3d_axis 3 0) with 0. cbn [Z.to_nat nth]. eexists. split; [reflexivity|]. split; [rewrite TL by lia; cbn [zprod]; lia|].
      intros r Hr. unfold pixel in Hr. cbn [zprod] in Hr. unfold dn. rewrite nth_tab by lia. cbn beta.
      eapply whole_eq; [apply flinspace_whole; [assumption|split; [apply Z.div_pos; nia|apply Z.div_lt_upper_bound; nia]]|].
      unfold offset, diff, anchor. cbn [coords zprod map combine nth fst snd]. rewrite !Z.mul_1_r. reflexivity.
    + change (atleast_3d_axis 3 1) with 1. cbn [Z.to_nat nth]. eexists. split; [reflexivity|]. split; [rewrite TL by lia; cbn [zprod]; lia|].
      intros r Hr. unfold pixel in Hr. cbn [zprod] in Hr. unfold dn. rewrite nth_tab by lia. cbn beta.
      eapply whole_eq; [apply flinspace_whole; [assumption|apply Z.mod_pos_bound; lia]|].
      unfold offset, diff, anchor. cbn [coords zprod map combine nth fst snd]. rewrite !Z.mul_1_r.
      rewrite (Z.mul_comm b c), Z.rem_mul_r by lia. rewrite (Z.mul_comm c (r / c mod b)), Z.div_add by lia. rewrite (Z.div_small (r mod c)) by (apply Z.mod_pos_bound; lia). change (Pos.to_nat 1) with 1%nat. cbn match. lia.
    + change (atleast_3d_axis 3 2) with 2. cbn [Z.to_nat nth]. eexists. split; [reflexivity|]. split; [rewrite TL by lia; cbn [zprod]; lia|].
      intros r Hr. unfold pixel in Hr. cbn [zprod] in Hr. unfold dn. rewrite nth_tab by lia. cbn beta.
      eapply whole_eq; [apply flinspace_whole; [assumption|apply Z.mod_pos_bound; lia]|].
      unfold offset, diff, anchor. change (Z.to_nat 2) with 2%nat. cbn [coords zprod map combine nth fst snd]. rewrite !Z.mul_1_r, !Z.div_1_r.
      rewrite (Z.mul_comm b c), Z.rem_mul_r by lia. rewrite (Z.mul_comm c (r / c mod b)), Z.mod_add by lia. rewrite Z.mod_mod by lia. reflexivity.
Qed.

Lemma offset_small : forall roi r a M, Forall (fun n => 1 <= n <= 2 * M) roi -> pixel roi r -> (a < length roi)%nat -> Z.abs (nth a (offset roi r) 0) <= M.
Proof.
  intros roi r a M HF Hr Ha. rewrite nth_offset by exact Ha.
  assert (HP : Forall (fun n => 0 < n) roi) by (eapply Forall_impl; [|exact HF]; cbn; intros; lia).
  pose proof (ClusterGeom.coords_inside roi r HP Hr) as HI. rewrite Forall_forall in HF. specialize (HF (nth a roi 0) (nth_In _ _ Ha)). clear HP Hr.
  assert (C : 0 <= nth a (coords roi r) 0 < nth a roi 0).
  { revert HI Ha. generalize (coords roi r). clear. revert a. induction roi as [|n roi IH]; intros a c HI Ha; [cbn in Ha; lia|].
    destruct c as [|x c]; [destruct HI|]. destruct HI as [HX HI]. destruct a as [|a]; cbn [nth]; [exact HX|]. apply IH; [exact HI|cbn in Ha; lia]. }
  Z.to_euclidean_division_equations. lia.
Qed.

(** C147: along an axis *)
Lemma axis_whole : forall L w asrt roi per var e axis, freachable L asrt roi per var e -> Forall (fun n => 1 <= n <= 2 ^ 53) roi -> 0 <= axis < lenZ roi ->
  exists d, fdistance_axis w asrt e axis = Ok d /\ lenZ d = zprod roi /\
    forall r, pixel roi r -> is_finite (dn d r) = true /\ B2R (dn d r) = IZR (nth (Z.to_nat axis) (offset roi r) 0).
Proof.
  intros L w asrt roi per var e axis HE HF HA. destruct (freachable_shape _ _ _ _ _ _ HE) as (k0 & k1 & k2 & HK & HS).
  exact (fdistance_axis_ok w asrt roi k0 k1 k2 e axis HS HK HF HA).
Qed.

(** ** Sums of squares *)

Lemma nth_map_combine : forall (F : double * double -> double) (l m : list double) r, length l = length m -> (Z.to_nat r < length l)%nat ->
  dn (map F (combine l m)) r = F (dn l r, dn m r).
Proof.
  intros F l m r HL Hr. unfold dn. rewrite (nth_indep _ dzero (F (dzero, dzero))) by (rewrite map_length, combine_length; lia).
  rewrite map_nth, combine_nth by exact HL. reflexivity.
Qed.

Lemma fsum_ok : forall L w asrt roi k0 k1 k2 e scale, has_shape roi k0 k1 k2 e -> shape3 roi = Ok (k0, k1, k2) ->
  Forall (fun n => 1 <= n <= 2 ^ 53) roi ->
  exists s, fsum_squares L w asrt e scale = Ok s /\ lenZ s = zprod roi /\
    forall r, pixel roi r -> exists x : Z -> double, (forall a, 0 <= a < lenZ roi -> whole (nth (Z.to_nat a) (offset roi r) 0) (x a)) /\
      dn s r = fold_left (fun acc a => dplus acc (pow2 L (scale a (x a)))) (zrange 0 (lenZ roi)) dzero.
Proof.
  intros L w asrt roi k0 k1 k2 e scale HS HK HF. unfold fsum_squares. rewrite (proj1 HS).
  assert (ZP : 0 <= zprod roi). { pose proof (zprod_pos roi). assert (Forall (fun n => 0 < n) roi) by (eapply Forall_impl; [|exact HF]; cbn; intros; lia). specialize (H H0). lia. }
  set (D := fun a => match fdistance_axis w asrt e a with Ok d => d | _ => [] end).
  assert (DV : forall a, 0 <= a < lenZ roi -> fdistance_axis w asrt e a = Ok (D a) /\ lenZ (D a) = zprod roi /\ forall r, pixel roi r -> whole (nth (Z.to_nat a) (offset roi r) 0) (dn (D a) r)).
  { intros a Ha. destruct (fdistance_axis_ok w asrt roi k0 k1 k2 e a HS HK HF Ha) as (d & E & X). unfold D. rewrite E. auto. }
  assert (G : forall l acc, (forall a, In a l -> 0 <= a < lenZ roi) -> lenZ acc = zprod roi ->
    exists s, foldM (fun acc i => d <- fdistance_axis w asrt e i ;; Ok (map (fun x : double * double => dplus (fst x) (pow2 L (scale i (snd x)))) (combine acc d))) l acc = Ok s /\
      lenZ s = zprod roi /\ forall r, pixel roi r -> dn s r = fold_left (fun acc a => dplus acc (pow2 L (scale a (dn (D a) r)))) l (dn acc r)).
  { induction l as [|a l IH]; intros acc HI HL; cbn [foldM].
    - exists acc. split; auto.
    - destruct (DV a (HI a (or_introl eq_refl))) as (E & LD & V). rewrite E, !bind_Ok.
      set (acc' := map _ _). assert (EL : length acc = length (D a)) by (unfold lenZ in *; lia).
      assert (L' : lenZ acc' = zprod roi). { unfold acc', lenZ. rewrite map_length, combine_length. unfold lenZ in HL. lia. }
      destruct (IH acc') as (s & Es & Ls & Vs); auto; [intros; apply HI; right; auto|]. exists s. split; auto. split; auto. intros r Hr. rewrite (Vs r Hr).
      cbn [fold_left]. f_equal. unfold acc'. rewrite nth_map_combine by (try exact EL; unfold pixel in Hr; unfold lenZ in HL; lia). reflexivity. }
  destruct (G (zrange 0 (lenZ roi)) (repeat dzero (Z.to_nat (zprod roi)))) as (s & Es & Ls & Vs).
  - intros a IN. apply zrange_In in IN. lia.
  - unfold lenZ. rewrite repeat_length. lia.
  - exists s. split; auto. split; auto. intros r Hr. exists (fun a => dn (D a) r). split; [intros a Ha; apply (DV a Ha); exact Hr|].
    rewrite (Vs r Hr). unfold dn at 2. rewrite nth_repeat. reflexivity.
Qed.
