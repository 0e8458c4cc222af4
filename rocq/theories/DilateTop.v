(** * DilateTop: [dilate] in terms of flat positions (proofs only). *)

From Coq Require Import ZArith List Bool Lia.
From Verif Require Import Base BaseLemmas Cluster Kernel SpecCluster Array3 Array3Lemmas Dilate DilateProofs SpecDilate.
Import ListNotations.
Open Scope Z_scope.

(** ** Positions *)

Definition rel (per : bool) (n x t y : Z) : Prop := if per then y = (x + t) mod n else y = x + t.

Lemma shape3_prod : forall shape n0 n1 n2, shape3 shape = Ok (n0, n1, n2) -> zprod shape = n0 * n1 * n2.
Proof.
  intros [|a [|b [|c [|d s]]]] n0 n1 n2 H; cbn [shape3] in H; inversion H; subst; cbn [zprod]; ring.
Qed.

Lemma shape3_pos : forall shape n0 n1 n2, shape3 shape = Ok (n0, n1, n2) -> Forall (fun n => 1 <= n) shape ->
  1 <= n0 /\ 1 <= n1 /\ 1 <= n2.
Proof.
  intros [|a [|b [|c [|d s]]]] n0 n1 n2 H F; cbn [shape3] in H; inversion H; subst;
  repeat match goal with X : Forall _ (_ :: _) |- _ => inversion X; subst; clear X end; lia.
Qed.

Lemma shape3_len : forall shape, (length shape <= 3)%nat -> exists n0 n1 n2, shape3 shape = Ok (n0, n1, n2).
Proof. intros [|a [|b [|c [|d s]]]] H; cbn [shape3]; eauto. simpl in H. lia. Qed.

Lemma div_mod_mul : forall p m k, 0 <= p -> 1 <= m -> 1 <= k -> (p mod (m * k)) / k = p / k mod m.
Proof.
  intros p m k Hp Hm Hk. rewrite (Z.mul_comm m k), Z.rem_mul_r by lia.
  rewrite (Z.mul_comm k), Z.div_add by lia. rewrite (Z.div_small (p mod k)); [lia|]. apply Z.mod_pos_bound; lia.
Qed.

Lemma mod_mod_mul : forall p m k, 0 <= p -> 1 <= m -> 1 <= k -> (p mod (m * k)) mod k = p mod k.
Proof.
  intros p m k Hp Hm Hk. rewrite (Z.mul_comm m k), Z.rem_mul_r by lia.
  rewrite (Z.mul_comm k), Z.mod_add by lia. apply Z.mod_mod. lia.
Qed.

Lemma div_lt1 : forall p m, 0 <= p < m -> p / m = 0.
Proof. intros. apply Z.div_small. auto. Qed.

Lemma kernel_step3 : forall per shape ks kv n0 n1 n2 k0 k1 k2 p q, length ks = length shape ->
  shape3 shape = Ok (n0, n1, n2) -> shape3 ks = Ok (k0, k1, k2) ->
  1 <= n0 /\ 1 <= n1 /\ 1 <= n2 -> 1 <= k0 /\ 1 <= k1 /\ 1 <= k2 ->
  (kernel_step per shape ks kv p q <->
   0 <= p < n0 * n1 * n2 /\ 0 <= q < n0 * n1 * n2 /\ exists r, 0 <= r < k0 * k1 * k2 /\ zn kv r = 1 /\
     rel per n0 (p / (n1 * n2)) (r / (k1 * k2) - (k0 - 1) / 2) (q / (n1 * n2)) /\
     rel per n1 (p / n2 mod n1) (r / k2 mod k1 - (k1 - 1) / 2) (q / n2 mod n1) /\
     rel per n2 (p mod n2) (r mod k2 - (k2 - 1) / 2) (q mod n2)).
Proof.
  intros per shape ks kv n0 n1 n2 k0 k1 k2 p q HL Hs Hk Pn Pk.
  unfold kernel_step, kernel_offset, pixel. rewrite (shape3_prod _ _ _ _ Hs), (shape3_prod _ _ _ _ Hk).
  assert (E0 : (1 - 1) / 2 = 0) by reflexivity.
  assert (R0 : forall x, rel per 1 0 (0 - 0) x <-> x = 0).
  { intros. unfold rel. destruct per; [rewrite Z.mod_1_r|]; lia. }
  split.
  - intros (Hp & Hq & d & (r & Hr & Hv & M1) & M2). split; auto. split; auto. exists r. split; auto. split; auto.
    destruct shape as [|a [|b [|c [|x s]]]]; destruct ks as [|ka [|kb [|kc [|kx ks]]]]; simpl in HL; try discriminate;
    cbn [shape3] in Hs, Hk; try discriminate; injection Hs as <- <- <-; injection Hk as <- <- <-;
    cbn [coords zprod anchor map] in *;
    repeat match goal with |- context [(1 - 1) / 2] => rewrite E0 end.
    + assert (p = 0) by lia. assert (q = 0) by lia. assert (r = 0) by lia. subst.
      change (0 / (1 * 1)) with 0. change (0 / 1 mod 1) with 0. change (0 mod 1) with 0.
      split; [|split]; apply R0; auto.
    + destruct d as [|t [|? ?]]; cbn [moved] in *; try tauto.
      rewrite !Z.mul_1_r, !Z.div_1_r, !Z.mod_1_r in *. rewrite !Z.mul_1_l in *.
      rewrite (div_lt1 p), (div_lt1 q), (div_lt1 r), (Z.mod_small p), (Z.mod_small q), (Z.mod_small r) by lia.
      split; [apply R0; auto|]. split; [|apply R0; auto].
      destruct M1 as [M1 _], M2 as [M2 _]. unfold rel. replace (r - (ka - 1) / 2) with t by lia. auto.
    + destruct d as [|t [|u [|? ?]]]; cbn [moved] in *; try tauto.
      rewrite !Z.mul_1_r, !Z.div_1_r, !Z.mod_1_r in *.
      destruct M1 as (M1 & M1' & _), M2 as (M2 & M2' & _). unfold rel in *. 
      replace (r / kb - (ka - 1) / 2) with t by lia. replace (r mod kb - (kb - 1) / 2) with u by lia.
      split; auto. split; auto. apply R0; auto.
    + destruct d as [|t [|u [|v [|? ?]]]]; cbn [moved] in *; try tauto.
      rewrite !Z.mul_1_r, !Z.div_1_r in *. rewrite !div_mod_mul, !mod_mod_mul in * by lia.
      destruct M1 as (M1 & M1' & M1'' & _), M2 as (M2 & M2' & M2'' & _). unfold rel in *. 
      replace (r / (kb * kc) - (ka - 1) / 2) with t by lia. replace (r / kc mod kb - (kb - 1) / 2) with u by lia.
      replace (r mod kc - (kc - 1) / 2) with v by lia. auto.
  - intros (Hp & Hq & r & Hr & Hv & M0 & M1 & M2). split; auto. split; auto.
    destruct shape as [|a [|b [|c [|x s]]]]; destruct ks as [|ka [|kb [|kc [|kx ks]]]]; simpl in HL; try discriminate;
    cbn [shape3] in Hs, Hk; try discriminate; injection Hs as <- <- <-; injection Hk as <- <- <-;
    cbn [coords zprod anchor map] in *.
    + exists []. split; [exists r|]; cbn [moved]; auto.
    + rewrite !Z.mul_1_r, !Z.div_1_r, !Z.mod_1_r in *. rewrite !Z.mul_1_l in *.
      rewrite (Z.mod_small p), (Z.mod_small q), (Z.mod_small r) in M1 by lia.
      exists [r - (ka - 1) / 2]. split; [exists r; cbn [moved]; rewrite ?Z.div_1_r; split; [lia|]; split; auto; split; auto; lia|].
      cbn [moved]. split; auto.
    + rewrite !Z.mul_1_r, !Z.div_1_r, !Z.mod_1_r in *.
      exists [r / kb - (ka - 1) / 2; r mod kb - (kb - 1) / 2].
      split; [exists r; cbn [moved]; rewrite ?Z.div_1_r; split; [lia|]; split; auto; split; [lia|]; split; auto; lia|].
      cbn [moved]. rewrite ?Z.div_1_r. auto.
    + rewrite !Z.mul_1_r, !Z.div_1_r in *. rewrite !div_mod_mul, !mod_mod_mul in * by lia.
      exists [r / (kb * kc) - (ka - 1) / 2; r / kc mod kb - (kb - 1) / 2; r mod kc - (kc - 1) / 2].
      split; [exists r; cbn [moved]; rewrite ?Z.mul_1_r, ?Z.div_1_r; rewrite div_mod_mul, mod_mod_mul by lia; split; [lia|]; split; auto; split; [lia|]; split; [lia|]; split; auto; lia|].
      cbn [moved]. rewrite ?Z.div_1_r. auto.
Qed.

Lemma flat3_encode : forall n0 n1 n2 p, 1 <= n1 -> 1 <= n2 -> 0 <= p < n0 * n1 * n2 ->
  flat3 n1 n2 (p / (n1 * n2)) (p / n2 mod n1) (p mod n2) = p /\
  0 <= p / (n1 * n2) < n0 /\ 0 <= p / n2 mod n1 < n1 /\ 0 <= p mod n2 < n2.
Proof.
  intros n0 n1 n2 p H1 H2 Hp. unfold flat3.
  assert (E : p / (n1 * n2) = p / n2 / n1) by (rewrite Z.mul_comm, Z.div_div by lia; auto).
  rewrite E. pose proof (Z.div_mod (p / n2) n1 ltac:(lia)). pose proof (Z.div_mod p n2 ltac:(lia)).
  pose proof (Z.mod_pos_bound (p / n2) n1 ltac:(lia)). pose proof (Z.mod_pos_bound p n2 ltac:(lia)).
  split; [lia|]. split; [|lia]. rewrite <- E. split; [apply Z.div_pos; nia|].
  apply Z.div_lt_upper_bound; nia.
Qed.

Definition it_of (iterations : list Z) (l : Z) : Z := zn iterations (if lenZ iterations =? 1 then 0 else l).

Section Core.

Variables n0 n1 n2 k0 k1 k2 : Z.
Variables f kv iterations : list Z.
Variable per : bool.

Hypothesis Pn : 1 <= n0 /\ 1 <= n1 /\ 1 <= n2.
Hypothesis Pk : 1 <= k0 < 2 ^ 62 /\ 1 <= k1 < 2 ^ 62 /\ 1 <= k2 < 2 ^ 62.
Hypothesis Lf : lenZ f = n0 * n1 * n2.
Hypothesis Lk : lenZ kv = k0 * k1 * k2.
Hypothesis Hnn : forall n, In n iterations -> 0 <= n.

Let p0 := (k0 - 1) / 2. Let q0 := k0 / 2.
Let p1 := (k1 - 1) / 2. Let q1 := k1 / 2.
Let p2 := (k2 - 1) / 2. Let q2 := k2 / 2.
Let f3 := mkarr n0 n1 n2 f.
Let K := mkarr k0 k1 k2 kv.
Let P := PP p0 q0 p1 q1 p2 q2.
Let it := it_of iterations.
Let ini (h i j : Z) := at3 0 f3 (h - p0) (i - p1) (j - p2).
Let Inv := inv n0 n1 n2 p0 q0 p1 q1 p2 q2 K it per ini.
Let Rch := rch n0 n1 n2 p0 q0 p1 q1 p2 q2 K per ini.
Let Inner := inner n0 n1 n2 p0 p1 p2.
Let Shp := shp n0 n1 n2 p0 q0 p1 q1 p2 q2.
Let Fits := fits n0 n1 n2 p0 q0 p1 q1 p2 q2.

Lemma pad_P : pad_width k0 k1 k2 = P.
Proof. unfold pad_width. rewrite !pad_axis_eq by lia. reflexivity. Qed.

Lemma half_pos : forall k, 1 <= k -> 0 <= (k - 1) / 2 /\ 0 <= k / 2 /\ (k - 1) / 2 + k / 2 + 1 = k.
Proof. intros. Z.to_euclidean_division_equations. lia. Qed.

Lemma Hpq : 0 <= p0 /\ 0 <= q0 /\ 0 <= p1 /\ 0 <= q1 /\ 0 <= p2 /\ 0 <= q2.
Proof.
  unfold p0, q0, p1, q1, p2, q2. pose proof (half_pos k0). pose proof (half_pos k1). pose proof (half_pos k2). lia.
Qed.

Lemma Ksz : p0 + q0 + 1 = k0 /\ p1 + q1 + 1 = k1 /\ p2 + q2 + 1 = k2.
Proof.
  unfold p0, q0, p1, q1, p2, q2. pose proof (half_pos k0). pose proof (half_pos k1). pose proof (half_pos k2). lia.
Qed.

Definition padded : res (arr Z) := if per then pad_periodic 0 f3 P else Ok (pad_constant 0 f3 P).

Lemma padded_ok : (per = true -> Fits) -> exists F, padded = Ok F /\ Shp F /\
  (forall h i j, dom n0 n1 n2 p0 q0 p1 q1 p2 q2 per h i j -> at3 0 F h i j = ini (w p0 n0 h) (w p1 n1 i) (w p2 n2 j)).
Proof.
  intros HF. pose proof Hpq as H. unfold padded, dom, ini, w.
  assert (SH : forall g, Shp (tab (p0 + d0 f3 + q0) (p1 + d1 f3 + q1) (p2 + d2 f3 + q2) g)).
  { intros g. unfold Shp, shp. cbn [d0 d1 d2 f3 tab]. split; [auto|]. split; [auto|]. split; [auto|]. apply tab_wfa; lia. }
  destruct per.
  - destruct (HF eq_refl) as (A0 & A1 & A2 & A3 & A4 & A5). unfold pad_periodic, P, PP.
    replace (_ && _ && _ && _ && _ && _) with true by (symmetry; rewrite !andb_true_iff; cbn; lia).
    eexists. split; [reflexivity|]. split; [apply SH|]. intros h i j (C0 & C1 & C2). cbn [d0 d1 d2 f3]. rewrite at3_tab by lia.
    f_equal; lia.
  - unfold pad_constant, P, PP. eexists. split; [reflexivity|]. split; [apply SH|]. intros h i j (C0 & C1 & C2).
    cbn [d0 d1 d2 f3]. rewrite at3_tab by lia. rewrite !Z.mod_small by lia.
    assert (inb f3 (h - p0) (i - p1) (j - p2) = true) as -> by (apply inb_inr; unfold inr; cbn; lia).
    f_equal; lia.
Qed.

Definition valid : Prop := forall l, In l f -> l <> 0 -> iter_of iterations l = Ok (it l) /\ 0 <= it l.

Lemma iter_of_it : forall l n, iter_of iterations l = Ok n -> n = it l /\ 0 <= it l.
Proof.
  intros l n H. unfold iter_of in H. unfold it, it_of.
  set (x := if lenZ iterations =? 1 then 0 else l) in *. pose proof (vget_inv _ _ _ _ H) as HR.
  rewrite vget_ok in H by auto. injection H as <-. split; auto. apply Hnn. apply zn_In. auto.
Qed.

Lemma ini_In : forall h i j, Inner h i j -> In (ini h i j) f.
Proof.
  intros h i j (C0 & C1 & C2). unfold ini, at3. cbn [d1 d2 dat f3]. apply nth_In.
  pose proof (flat3_range n0 n1 n2 (h - p0) (i - p1) (j - p2)). unfold lenZ in Lf. lia.
Qed.

Lemma Inv0 : valid -> (per = true -> Fits) -> forall F, Shp F ->
  (forall h i j, dom n0 n1 n2 p0 q0 p1 q1 p2 q2 per h i j -> at3 0 F h i j = ini (w p0 n0 h) (w p1 n1 i) (w p2 n2 j)) ->
  Inv 0 F.
Proof.
  intros HV HF F HS HE. pose proof Hpq as Hp.
  assert (DI : forall h i j, Inner h i j -> at3 0 F h i j = ini h i j).
  { intros h i j Hi. rewrite HE by (apply inner_dom; auto). destruct (w3_inner n0 n1 n2 p0 p1 p2 h i j Hi) as (-> & -> & ->). auto. }
  constructor; auto.
  - intros h i j Hd Hz. pose proof (w_cell n0 n1 n2 p0 p1 p2 Pn h i j) as Hi. pose proof (ini_In _ _ _ Hi) as Hin.
    rewrite HE in * by auto. destruct (HV _ Hin Hz) as [_ X]. apply rch_base; auto. lia.
  - intros Ep h i j Hc Hz. pose proof (w_cell n0 n1 n2 p0 p1 p2 Pn h i j) as Hi. rewrite (DI _ _ _ Hi).
    rewrite <- HE; auto. unfold dom. rewrite Ep. auto.
  - intros _ l h i j Hl R. inversion R; subst.
    + rewrite DI; auto.
    + pose proof (rch_nonneg _ _ _ _ _ _ _ _ _ _ _ _ _ _ _ _ _ H0). lia.
Qed.

Lemma core_run : valid -> (per = true -> Fits) -> forall n, 0 <= n ->
  exists F0 F, padded = Ok F0 /\ foldM (dil_iter per iterations K P) (zrange 0 n) F0 = Ok F /\ Inv n F.
Proof.
  intros HV HF n Hn. destruct (padded_ok HF) as (F0 & E0 & S0 & V0).
  destruct (iters_ok n0 n1 n2 p0 q0 p1 q1 p2 q2 Pn Hpq K iterations it per ini HF) with (n := n) (F := F0) as (F & E & V); auto.
  - intros h i j Hi Hz. apply HV; auto. apply ini_In; auto.
  - apply Inv0; auto.
  - exists F0, F. auto.
Qed.

Lemma core_valid : (per = true -> Fits) -> forall F0 F n, 1 <= n -> padded = Ok F0 ->
  foldM (dil_iter per iterations K P) (zrange 0 n) F0 = Ok F -> valid.
Proof.
  intros HF F0 F n Hn E0 E l Hl Hz. destruct (padded_ok HF) as (F0' & E0' & S0 & V0).
  rewrite E0 in E0'. injection E0' as <-. rewrite zrange_cons in E by lia. cbn [foldM] in E.
  apply bind_ok in E. destruct E as (F1 & E1 & _). unfold dil_iter, P, PP in E1.
  apply bind_ok in E1. destruct E1 as (G & E1 & _).
  apply In_zn in Hl. destruct Hl as (p & Hp & <-). rewrite Lf in Hp.
  destruct (flat3_encode n0 n1 n2 p) as (X0 & X1 & X2 & X3); try lia.
  set (h := p / (n1 * n2)) in *. set (i := p / n2 mod n1) in *. set (j := p mod n2) in *.
  assert (Hi : Inner (h + p0) (i + p1) (j + p2)) by (unfold Inner, inner; lia).
  assert (EL : at3 0 F0 (h + p0) (i + p1) (j + p2) = zn f p).
  { rewrite V0 by (apply inner_dom; auto using Hpq). destruct (w3_inner n0 n1 n2 p0 p1 p2 _ _ _ Hi) as (-> & -> & ->).
    unfold ini, at3, zn. cbn [d1 d2 dat f3]. rewrite !Z.add_simpl_r, X0. auto. }
  destruct (dil_fold_valid n0 n1 n2 p0 q0 p1 q1 p2 q2 Pn Hpq K iterations it F0 0
     (points p0 q0 p1 q1 p2 q2 F0) F0 G S0) with (h := h + p0) (i := i + p1) (j := j + p2) as (m & Em).
  - intros a b c Hin. apply (points_In n0 n1 n2) in Hin; auto.
  - exact E1.
  - apply (points_In n0 n1 n2); auto.
  - congruence.
  - rewrite EL in Em. rewrite Em. destruct (iter_of_it _ _ Em) as [-> ?]. auto.
Qed.

Lemma zn_crop : forall F p, Shp F -> 0 <= p < n0 * n1 * n2 ->
  zn (dat (crop P F)) p = at3 0 F (p / (n1 * n2) + p0) (p / n2 mod n1 + p1) (p mod n2 + p2).
Proof.
  intros F p (S0 & S1 & S2 & W) Hp. destruct (flat3_encode n0 n1 n2 p) as (X0 & X1 & X2 & X3); try lia.
  unfold crop, P, PP. replace (d0 F - q0 - p0) with n0 by lia. replace (d1 F - q1 - p1) with n1 by lia.
  replace (d2 F - q2 - p2) with n2 by lia.
  rewrite <- (at3_tab _ 0 n0 n1 n2 (fun h i j => at3 0 F (h + p0) (i + p1) (j + p2)) _ _ _ X1 X2 X3).
  unfold at3, zn. cbn [d1 d2 tab]. rewrite X0. reflexivity.
Qed.

Lemma crop_len : forall F, Shp F -> lenZ (dat (crop P F)) = n0 * n1 * n2.
Proof.
  intros F (S0 & S1 & S2 & W). unfold crop, P, PP. replace (d0 F - q0 - p0) with n0 by lia. replace (d1 F - q1 - p1) with n1 by lia.
  replace (d2 F - q2 - p2) with n2 by lia. unfold tab. cbn [dat]. unfold lenZ. rewrite map_length, zseq_length. nia.
Qed.

Lemma ini_zn : forall p, 0 <= p < n0 * n1 * n2 -> ini (p / (n1 * n2) + p0) (p / n2 mod n1 + p1) (p mod n2 + p2) = zn f p.
Proof.
  intros p Hp. destruct (flat3_encode n0 n1 n2 p) as (X0 & X1 & X2 & X3); try lia.
  unfold ini, at3, zn. cbn [d1 d2 dat f3]. rewrite !Z.add_simpl_r, X0. auto.
Qed.

Lemma Inv_keeps : forall n F, Inv n F -> Shp F /\
  forall p, 0 <= p < n0 * n1 * n2 -> zn f p <> 0 -> zn (dat (crop P F)) p = zn f p.
Proof.
  intros n F HV. pose proof (v_shp _ _ _ _ _ _ _ _ _ _ _ _ _ _ _ HV) as HS. pose proof Hpq as HP. split; auto.
  intros p Hr Hz. rewrite zn_crop by auto.
  destruct (flat3_encode n0 n1 n2 p) as (X0 & X1 & X2 & X3); try lia.
  assert (Hi : Inner (p / (n1 * n2) + p0) (p / n2 mod n1 + p1) (p mod n2 + p2)) by (unfold Inner, inner; lia).
  destruct (w3_inner n0 n1 n2 p0 p1 p2 _ _ _ Hi) as (E1 & E2 & E3).
  rewrite (v_ini _ _ _ _ _ _ _ _ _ _ _ _ _ _ _ HV).
  - rewrite E1, E2, E3. apply ini_zn; auto.
  - apply inner_dom; auto.
  - rewrite E1, E2, E3, ini_zn; auto.
Qed.

Lemma padded_inv : forall F, padded = Ok F -> per = true -> Fits.
Proof.
  intros F E Ep. unfold padded in E. rewrite Ep in E. unfold pad_periodic, P, PP in E.
  match goal with X : (if ?c then _ else _) = _ |- _ => destruct c eqn:Ec end; [|discriminate].
  rewrite !andb_true_iff in Ec. cbn [d0 d1 d2 f3] in Ec. unfold Fits, fits. lia.
Qed.

(** Iteration 0: nothing happens. *)
Lemma padded_crop : forall F, padded = Ok F -> Shp F /\
  forall p, 0 <= p < n0 * n1 * n2 -> zn (dat (crop P F)) p = zn f p.
Proof.
  intros F E. destruct (padded_ok (padded_inv F E)) as (F' & E' & S & V). rewrite E in E'. injection E' as <-.
  split; auto. intros p Hp. rewrite zn_crop by auto.
  destruct (flat3_encode n0 n1 n2 p) as (X0 & X1 & X2 & X3); try lia.
  assert (Hi : Inner (p / (n1 * n2) + p0) (p / n2 mod n1 + p1) (p mod n2 + p2)) by (unfold Inner, inner; lia).
  destruct (w3_inner n0 n1 n2 p0 p1 p2 _ _ _ Hi) as (E1 & E2 & E3).
  rewrite V by (apply inner_dom; auto using Hpq). rewrite E1, E2, E3. apply ini_zn; auto.
Qed.

(** ** Steps *)

Variables shape ks : list Z.
Hypothesis Hs : shape3 shape = Ok (n0, n1, n2).
Hypothesis Hk : shape3 ks = Ok (k0, k1, k2).
Hypothesis HL : length ks = length shape.

Lemma step_flat : forall h i j a b c, Inner h i j -> st3 n0 n1 n2 p0 q0 p1 q1 p2 q2 K per h i j a b c ->
  kernel_step per shape ks kv (flat3 n1 n2 (h - p0) (i - p1) (j - p2)) (flat3 n1 n2 (a - p0) (b - p1) (c - p2)).
Proof.
  intros h i j a' b' c' (I0 & I1 & I2) ((J0 & J1 & J2) & a & b & c & A0 & A1 & A2 & EK & EM).
  pose proof Ksz as KS. rewrite (kernel_step3 per shape ks kv n0 n1 n2 k0 k1 k2); auto; try lia.
  split; [apply flat3_range; lia|]. split; [apply flat3_range; lia|].
  exists (flat3 k1 k2 (a - (h - p0)) (b - (i - p1)) (c - (j - p2))).
  split; [apply flat3_range; lia|]. split; [exact EK|].
  destruct (flat3_decode n1 n2 (h - p0) (i - p1) (j - p2)) as (-> & -> & ->); [lia|lia|].
  destruct (flat3_decode n1 n2 (a' - p0) (b' - p1) (c' - p2)) as (-> & -> & ->); [lia|lia|].
  destruct (flat3_decode k1 k2 (a - (h - p0)) (b - (i - p1)) (c - (j - p2))) as (-> & -> & ->); [lia|lia|].
  fold p0 p1 p2. unfold rel. destruct per; destruct EM as (-> & -> & ->); [unfold w|]; (split; [|split]); try lia.
  all: match goal with |- ?p + ?x mod ?n - ?p = ?y mod ?n => replace y with x by lia; lia end.
Qed.

Lemma flat_step : forall p q, kernel_step per shape ks kv p q ->
  st3 n0 n1 n2 p0 q0 p1 q1 p2 q2 K per (p / (n1 * n2) + p0) (p / n2 mod n1 + p1) (p mod n2 + p2)
    (q / (n1 * n2) + p0) (q / n2 mod n1 + p1) (q mod n2 + p2).
Proof.
  intros p q H. pose proof Ksz as KS. rewrite (kernel_step3 per shape ks kv n0 n1 n2 k0 k1 k2) in H; auto; try lia.
  destruct H as (Hp & Hq & r & Hr & Ev & M0 & M1 & M2). fold p0 in M0. fold p1 in M1. fold p2 in M2.
  destruct (flat3_encode n0 n1 n2 p) as (X0 & X1 & X2 & X3); try lia.
  destruct (flat3_encode n0 n1 n2 q) as (Y0 & Y1 & Y2 & Y3); try lia.
  destruct (flat3_encode k0 k1 k2 r) as (Z0 & Z1 & Z2 & Z3); try lia.
  set (ph := p / (n1 * n2)) in *. set (pi := p / n2 mod n1) in *. set (pj := p mod n2) in *.
  set (qh := q / (n1 * n2)) in *. set (qi := q / n2 mod n1) in *. set (qj := q mod n2) in *.
  set (rh := r / (k1 * k2)) in *. set (ri := r / k2 mod k1) in *. set (rj := r mod k2) in *.
  split; [unfold inner; lia|].
  exists (ph + rh), (pi + ri), (pj + rj). split; [lia|]. split; [lia|]. split; [lia|]. split.
  - unfold at3. cbn [d1 d2 dat K]. replace (ph + rh - (ph + p0 - p0)) with rh by lia.
    replace (pi + ri - (pi + p1 - p1)) with ri by lia. replace (pj + rj - (pj + p2 - p2)) with rj by lia.
    rewrite Z0. exact Ev.
  - unfold rel in *. destruct per; [unfold w|]; (split; [|split]); try lia.
    + rewrite M0. replace (ph + (rh - p0)) with (ph + rh - p0) by lia. lia.
    + rewrite M1. replace (pi + (ri - p1)) with (pi + ri - p1) by lia. lia.
    + rewrite M2. replace (pj + (rj - p2)) with (pj + rj - p2) by lia. lia.
Qed.

Definition lab (l : Z) (p : Z) : Prop := pixel shape p /\ zn f p = l.

Lemma rch_flat : forall l k h i j, Rch l k h i j ->
  reaches (kernel_step per shape ks kv) (lab l) k (flat3 n1 n2 (h - p0) (i - p1) (j - p2)).
Proof.
  intros l k h i j R. induction R.
  - apply reaches_start; auto. destruct H0 as (I0 & I1 & I2). split.
    + unfold pixel. rewrite (shape3_prod _ _ _ _ Hs). apply flat3_range; lia.
    + exact H1.
  - eapply reaches_step; eauto. apply step_flat; auto. eapply rch_inner; eauto.
Qed.

Lemma flat_rch : forall l k p, reaches (kernel_step per shape ks kv) (lab l) k p ->
  Rch l k (p / (n1 * n2) + p0) (p / n2 mod n1 + p1) (p mod n2 + p2).
Proof.
  intros l k p R. induction R.
  - destruct H0 as [Hp El]. unfold pixel in Hp. rewrite (shape3_prod _ _ _ _ Hs) in Hp.
    destruct (flat3_encode n0 n1 n2 p) as (X0 & X1 & X2 & X3); try lia.
    apply rch_base; auto; [unfold inner; lia|]. rewrite <- El. apply ini_zn. auto.
  - eapply rch_step; eauto. apply flat_step; auto.
Qed.

(** What an invariant state means for the cropped result. *)
Lemma Inv_flat : forall n F, Inv n F -> let ret := dat (crop P F) in
  lenZ ret = lenZ f /\
  (forall p, pixel shape p -> zn f p <> 0 -> zn ret p = zn f p) /\
  (forall p, pixel shape p -> zn ret p <> 0 ->
     reaches (kernel_step per shape ks kv) (lab (zn ret p)) (Z.min n (it (zn ret p))) p) /\
  ((forall l, In l f -> l <> 0 -> n <= it l) -> forall p l, l <> 0 ->
     reaches (kernel_step per shape ks kv) (lab l) n p -> zn ret p <> 0).
Proof.
  intros n F HV ret. pose proof (v_shp _ _ _ _ _ _ _ _ _ _ _ _ _ _ _ HV) as HS. pose proof Hpq as HP.
  assert (CR : forall p, pixel shape p -> zn ret p = at3 0 F (p / (n1 * n2) + p0) (p / n2 mod n1 + p1) (p mod n2 + p2) /\
     Inner (p / (n1 * n2) + p0) (p / n2 mod n1 + p1) (p mod n2 + p2) /\ 0 <= p < n0 * n1 * n2 /\
     flat3 n1 n2 (p / (n1 * n2) + p0 - p0) (p / n2 mod n1 + p1 - p1) (p mod n2 + p2 - p2) = p).
  { intros p Hp. unfold pixel in Hp. rewrite (shape3_prod _ _ _ _ Hs) in Hp. split; [apply zn_crop; auto|].
    destruct (flat3_encode n0 n1 n2 p) as (X0 & X1 & X2 & X3); try lia. split; [unfold Inner, inner; lia|]. split; auto.
    rewrite !Z.add_simpl_r. auto. }
  split; [rewrite Lf; apply crop_len; auto|]. split; [|split].
  - intros p Hp Hz. destruct (CR p Hp) as (E & Hi & Hr & _). rewrite E.
    destruct (w3_inner n0 n1 n2 p0 p1 p2 _ _ _ Hi) as (E1 & E2 & E3).
    rewrite (v_ini _ _ _ _ _ _ _ _ _ _ _ _ _ _ _ HV).
    + rewrite E1, E2, E3. apply ini_zn; auto.
    + apply inner_dom; auto.
    + rewrite E1, E2, E3, ini_zn; auto.
  - intros p Hp Hz. destruct (CR p Hp) as (E & Hi & Hr & Ef). rewrite E in *.
    pose proof (v_rch _ _ _ _ _ _ _ _ _ _ _ _ _ _ _ HV _ _ _ (inner_dom n0 n1 n2 p0 q0 p1 q1 p2 q2 HP per _ _ _ Hi) Hz) as R.
    destruct (w3_inner n0 n1 n2 p0 p1 p2 _ _ _ Hi) as (E1 & E2 & E3). rewrite E1, E2, E3 in R.
    apply rch_flat in R. rewrite Ef in R. exact R.
  - intros Hit p l Hl R. assert (Hp : pixel shape p).
    { inversion R; subst; [destruct H0; auto|]. destruct H0 as (_ & X & _). auto. }
    destruct (CR p Hp) as (E & Hi & Hr & Ef). rewrite E. apply flat_rch in R.
    eapply (v_all _ _ _ _ _ _ _ _ _ _ _ _ _ _ _ HV); eauto.
    intros h i j Hin Hz. apply Hit; auto. apply ini_In; auto.
Qed.

End Core.

(** ** [dilate] *)

Lemma shape3_kernel : forall ks k0 k1 k2, shape3 ks = Ok (k0, k1, k2) -> Forall (fun n => 1 <= n < 2 ^ 62) ks ->
  1 <= k0 < 2 ^ 62 /\ 1 <= k1 < 2 ^ 62 /\ 1 <= k2 < 2 ^ 62.
Proof.
  intros [|a [|b [|c [|d s]]]] n0 n1 n2 H F; cbn [shape3] in H; try discriminate; injection H as <- <- <-;
  repeat match goal with X : Forall _ (_ :: _) |- _ => inversion X; subst; clear X end;
  change (2 ^ 62) with 4611686018427387904 in *; lia.
Qed.

Lemma half_fits3 : forall shape ks n0 n1 n2 k0 k1 k2, length ks = length shape ->
  shape3 shape = Ok (n0, n1, n2) -> shape3 ks = Ok (k0, k1, k2) ->
  1 <= n0 /\ 1 <= n1 /\ 1 <= n2 -> half_fits shape ks ->
  k0 / 2 <= n0 /\ k1 / 2 <= n1 /\ k2 / 2 <= n2.
Proof.
  intros shape ks n0 n1 n2 k0 k1 k2 HL Hs Hk Pn.
  destruct shape as [|a [|b [|c [|x s]]]]; destruct ks as [|ka [|kb [|kc [|kx ks]]]]; simpl in HL; try discriminate;
    cbn [shape3] in Hs, Hk; try discriminate; injection Hs as <- <- <-; injection Hk as <- <- <-;
    cbn [half_fits]; change (1 / 2) with 0; lia.
Qed.

Lemma dilate_body : forall asrt shape f ks kv iterations per ret,
  image shape f -> kernel ks kv -> (forall n, In n iterations -> 0 <= n) ->
  dilate asrt shape f ks kv iterations per = Ok ret ->
  lenZ ret = lenZ f /\ forall p, pixel shape p -> zn f p <> 0 -> zn ret p = zn f p.
Proof.
  intros asrt shape f ks kv iterations per ret (Hpos & Lf) (Kpos & Lk) Hnn E. unfold dilate in E.
  do 4 (apply bind_ok in E; destruct E as (? & _ & E)).
  unfold atleast_3d in E. apply bind_ok in E. destruct E as (K & EK & E). apply bind_ok in EK.
  destruct EK as ([[k0 k1] k2] & Hk & EK). injection EK as <-.
  apply bind_ok in E. destruct E as (f3 & Ef & E). apply bind_ok in Ef. destruct Ef as ([[n0 n1] n2] & Hs & Ef). injection Ef as <-.
  cbn [d0 d1 d2] in E. match goal with X : (if ?c then _ else _) = _ |- _ => destruct c; [discriminate|] end.
  pose proof (shape3_pos _ _ _ _ Hs Hpos) as Pn. pose proof (shape3_kernel _ _ _ _ Hk Kpos) as Pk.
  rewrite (shape3_prod _ _ _ _ Hs) in Lf. rewrite (shape3_prod _ _ _ _ Hk) in Lk. unfold pixel. rewrite (shape3_prod _ _ _ _ Hs).
  rewrite (pad_P k0 k1 k2 Pk) in E.
  apply bind_ok in E. destruct E as (F0 & E0 & E). apply bind_ok in E. destruct E as (n & En & E).
  apply bind_ok in E. destruct E as (F & EF & E). injection E as <-.
  change (padded n0 n1 n2 k0 k1 k2 f per = Ok F0) in E0.
  pose proof (padded_inv n0 n1 n2 k0 k1 k2 f per F0 E0) as HF.
  assert (Hit : iterations <> []) by (destruct iterations; [discriminate|congruence]).
  destruct (amax_ok iterations Hit) as (n' & En' & Hin & _). rewrite En in En'. injection En' as <-.
  pose proof (Hnn _ Hin) as Hn.
  destruct (Z.eq_dec n 0) as [->|Hn0].
  - rewrite zrange_nil in EF by lia. cbn [foldM] in EF. injection EF as <-.
    destruct (padded_crop n0 n1 n2 k0 k1 k2 f kv iterations per Pn Pk Hnn F0 E0) as [HS HC]. split.
    + rewrite Lf. apply crop_len; auto.
    + intros p Hp _. apply HC; auto.
  - pose proof (core_valid n0 n1 n2 k0 k1 k2 f kv iterations per Pn Pk Lf Hnn HF F0 F n ltac:(lia) E0 EF) as HV.
    destruct (core_run n0 n1 n2 k0 k1 k2 f kv iterations per Pn Pk Lf Hnn HV HF n Hn) as (F0' & F' & E0' & EF' & HI).
    rewrite E0 in E0'. injection E0' as <-. rewrite EF in EF'. injection EF' as <-.
    destruct (Inv_keeps n0 n1 n2 k0 k1 k2 f kv iterations per Pn Pk Hnn n F HI) as [HS HK]. split; auto. rewrite Lf. apply crop_len; auto.
Qed.

Lemma dilate_ok : forall asrt shape f ks kv iterations per, dilatable per shape f ks kv iterations ->
  exists ret n, dilate asrt shape f ks kv iterations per = Ok ret /\ amax iterations = Ok n /\ lenZ ret = lenZ f /\
  (forall p, pixel shape p -> zn f p <> 0 -> zn ret p = zn f p) /\
  (forall p, pixel shape p -> zn ret p <> 0 -> 0 <= zn ret p < lenZ iterations /\
     reaches (kernel_step per shape ks kv) (fun x => pixel shape x /\ zn f x = zn ret p)
       (Z.min n (zn iterations (zn ret p))) p) /\
  ((forall l, In l f -> l <> 0 -> n <= zn iterations l) -> forall p l, l <> 0 ->
     reaches (kernel_step per shape ks kv) (fun x => pixel shape x /\ zn f x = l) n p -> zn ret p <> 0).
Proof.
  intros asrt shape f ks kv iterations per (Hrank & (Hpos & Lf) & HL & (Kpos & Lk) & Hk01 & Hfit & Hit & Hnn & Hlab).
  destruct (shape3_len shape Hrank) as (n0 & n1 & n2 & Hs).
  destruct (shape3_len ks ltac:(lia)) as (k0 & k1 & k2 & Hk).
  pose proof (shape3_pos _ _ _ _ Hs Hpos) as Pn. pose proof (shape3_kernel _ _ _ _ Hk Kpos) as Pk.
  rewrite (shape3_prod _ _ _ _ Hs) in Lf. rewrite (shape3_prod _ _ _ _ Hk) in Lk.
  destruct (amax_ok iterations Hit) as (n & En & Hin & _). pose proof (Hnn _ Hin) as Hn.
  assert (HIT : forall l, In l f -> l <> 0 -> it_of iterations l = zn iterations l).
  { intros l Hl H0. unfold it_of. destruct (lenZ iterations =? 1) eqn:E1; auto. specialize (Hlab l Hl). lia. }
  assert (HV : valid f iterations).
  { intros l Hl H0. specialize (Hlab l Hl) as HR. unfold iter_of, it_of. destruct (lenZ iterations =? 1) eqn:E1; [lia|].
    rewrite vget_ok by auto. split; auto. apply Hnn. apply zn_In. auto. }
  assert (HF : per = true -> fits n0 n1 n2 ((k0 - 1) / 2) (k0 / 2) ((k1 - 1) / 2) (k1 / 2) ((k2 - 1) / 2) (k2 / 2)).
  { intros Ep. pose proof (half_fits3 _ _ _ _ _ _ _ _ HL Hs Hk Pn (Hfit Ep)).
    unfold fits. Z.to_euclidean_division_equations. lia. }
  destruct (core_run n0 n1 n2 k0 k1 k2 f kv iterations per Pn Pk Lf Hnn HV HF n Hn) as (F0 & F & E0 & EF & HI).
  exists (dat (crop (PP ((k0 - 1) / 2) (k0 / 2) ((k1 - 1) / 2) (k1 / 2) ((k2 - 1) / 2) (k2 / 2)) F)), n.
  split.
  { unfold dilate.
    assert (A1 : assertb asrt (Nat.leb (length shape) 3) = Ok tt).
    { unfold assertb. destruct asrt; auto. apply Nat.leb_le in Hrank. rewrite Hrank. auto. }
    assert (A2 : assertb asrt (Nat.eqb (length shape) (length ks)) = Ok tt).
    { unfold assertb. destruct asrt; auto. rewrite HL, Nat.eqb_refl. auto. }
    assert (A3 : assertb asrt (forallb (fun k => (k =? 0) || (k =? 1)) kv) = Ok tt).
    { unfold assertb. destruct asrt; auto. assert (forallb (fun k => (k =? 0) || (k =? 1)) kv = true) as ->; auto.
      apply forallb_forall. intros x Hx. specialize (Hk01 x Hx). apply orb_true_iff. lia. }
    assert (A4 : (if asrt then m <- amax f ;; assertb true (u64 m <=? lenZ iterations + 1) else Ok tt) = Ok tt).
    { destruct asrt; auto. assert (Hf : f <> []) by (intros ->; change (lenZ (@nil Z)) with 0 in Lf; nia).
      destruct (amax_ok f Hf) as (m & Em & Hm & _). rewrite Em, bind_Ok. specialize (Hlab m Hm). unfold assertb.
      assert (u64 m <= m) by (unfold u64; apply Z.mod_le; [lia|reflexivity]).
      replace (u64 m <=? lenZ iterations + 1) with true by lia. auto. }
    rewrite A1, A2, A3, A4, !bind_Ok. unfold atleast_3d. rewrite Hk, Hs, !bind_Ok. cbn [d0 d1 d2].
    replace ((k0 <? 1) || (k1 <? 1) || (k2 <? 1)) with false by (symmetry; rewrite !orb_false_iff; lia).
    rewrite (pad_P k0 k1 k2 Pk). unfold padded in E0. rewrite E0, bind_Ok, En, bind_Ok, EF, bind_Ok. reflexivity. }
  destruct (Inv_flat n0 n1 n2 k0 k1 k2 f kv iterations per Pn Pk Lf Hnn shape ks Hs Hk HL n F HI) as (R1 & R2 & R3 & R4).
  split; auto. split; auto. split; auto. split.
  - intros p Hp Hz. specialize (R3 p Hp Hz). set (ret := dat _) in *.
    assert (Hl : In (zn ret p) f).
    { assert (G : forall k q, reaches (kernel_step per shape ks kv) (lab f shape (zn ret p)) k q -> In (zn ret p) f).
      { intros k q X. induction X; auto. destruct H0 as [Hpx <-]. apply zn_In. unfold pixel in Hpx.
        rewrite (shape3_prod _ _ _ _ Hs) in Hpx. lia. }
      eapply G; eauto. }
    split; [apply Hlab; auto|]. rewrite HIT in R3 by auto. exact R3.
  - intros Hl p l H0 R. apply R4 with (l := l); auto. intros l' Hl' H0'. rewrite HIT; auto.
Qed.

Lemma reaches_fg : forall adj (S : Z -> Prop) (g : Z -> Z) k p, reaches adj (fun x => S x /\ g x <> 0) k p <->
  exists l, l <> 0 /\ reaches adj (fun x => S x /\ g x = l) k p.
Proof.
  intros adj S g k p. split.
  - intros R. induction R.
    + destruct H0. exists (g p). split; auto. apply reaches_start; auto.
    + destruct IHR as (l & Hl & R'). exists l. split; auto. eapply reaches_step; eauto.
  - intros (l & Hl & R). induction R.
    + destruct H0 as [? ?]. apply reaches_start; auto. split; auto. congruence.
    + eapply reaches_step; eauto.
Qed.

Lemma reaches_weaken : forall adj S k p, reaches adj S k p -> forall k', k <= k' -> reaches adj S k' p.
Proof.
  intros adj S k p R. induction R; intros k' Hk.
  - apply reaches_start; auto. lia.
  - replace k' with (k' - 1 + 1) by lia. eapply reaches_step; eauto. apply IHR. lia.
Qed.

Lemma amax_repeat : forall n m, (0 < m)%nat -> amax (repeat n m) = Ok n.
Proof.
  intros n m H. destruct (amax_ok (repeat n m)) as (x & E & Hx & _).
  - destruct m; [lia|discriminate].
  - rewrite E. f_equal. apply repeat_spec in Hx. auto.
Qed.

Lemma dilatable_n_list : forall per shape f ks kv n, dilatable_n per shape f ks kv -> 0 <= n ->
  exists m, amax f = Ok m /\ 0 <= m /\ u64 (m + 1) = m + 1 /\ dilatable per shape f ks kv (repeat n (Z.to_nat (m + 1))) /\
    (forall l, In l f -> 0 <= l <= m) /\ amax (repeat n (Z.to_nat (m + 1))) = Ok n.
Proof.
  intros per shape f ks kv n (H1 & H2 & H3 & H4 & H5 & H6 & H7) Hn.
  assert (Hf : f <> []).
  { destruct H2 as [F L]. intros ->. change (lenZ (@nil Z)) with 0 in L.
    assert (0 < zprod shape) by (apply zprod_pos; eapply Forall_impl; [|exact F]; cbv beta; lia). lia. }
  destruct (amax_ok f Hf) as (m & Em & Hm & Hmax). exists m. split; auto. pose proof (H7 m Hm) as Hb. split; [lia|].
  split; [unfold u64, two64; apply Z.mod_small; change (2 ^ 62) with 4611686018427387904 in Hb; lia|].
  split; [|split].
  - unfold dilatable. split; auto. split; auto. split; auto. split; auto. split; auto. split; auto. split.
    + destruct (Z.to_nat (m + 1)) eqn:E; [lia|discriminate].
    + split; [intros x Hx; apply repeat_spec in Hx; lia|].
      intros l Hl. rewrite repeat_lenZ. specialize (Hmax l Hl). specialize (H7 l Hl). lia.
  - intros l Hl. specialize (Hmax l Hl). specialize (H7 l Hl). lia.
  - apply amax_repeat. lia.
Qed.

Lemma dilate_n_ok : forall asrt shape f ks kv n per, dilatable_n per shape f ks kv -> 0 <= n ->
  exists ret, dilate_n asrt shape f ks kv n per = Ok ret /\ lenZ ret = lenZ f /\
  forall p, pixel shape p -> (zn ret p <> 0 <->
    reaches (kernel_step per shape ks kv) (fun x => pixel shape x /\ zn f x <> 0) n p).
Proof.
  intros asrt shape f ks kv n per H Hn.
  destruct (dilatable_n_list per shape f ks kv n H Hn) as (m & Em & Hm & Eu & HD & Hlab & Ea).
  destruct (dilate_ok asrt _ _ _ _ _ _ HD) as (ret & n' & E & En & L & _ & R & C).
  rewrite Ea in En. injection En as <-.
  exists ret. unfold dilate_n. rewrite Em, bind_Ok, Eu. split; auto. split; auto.
  intros p Hp. rewrite reaches_fg. split.
  - intros Hz. exists (zn ret p). split; auto. destruct (R p Hp Hz) as [_ X]. eapply reaches_weaken; [exact X|]. lia.
  - intros (l & Hl & X). eapply C; eauto. intros l' Hl' _. rewrite zn_repeat; [lia|]. specialize (Hlab l' Hl'). lia.
Qed.

(** ** One more iteration, not periodic *)

Lemma foldM_ext : forall A S (f g : S -> A -> res S) l s, (forall s a, In a l -> f s a = g s a) ->
  foldM f l s = foldM g l s.
Proof.
  induction l as [|a l IH]; intros s H; auto. cbn [foldM]. rewrite H by (simpl; auto).
  destruct (g s a); cbn [bind]; auto. apply IH. intros; apply H; simpl; auto.
Qed.

Section More.
Variables n0 n1 n2 k0 k1 k2 : Z.
Variables f kv A B : list Z.
Hypothesis Pn : 1 <= n0 /\ 1 <= n1 /\ 1 <= n2.
Hypothesis Pk : 1 <= k0 < 2 ^ 62 /\ 1 <= k1 < 2 ^ 62 /\ 1 <= k2 < 2 ^ 62.
Hypothesis Lf : lenZ f = n0 * n1 * n2.
Variable n : Z.
Hypothesis Hn : 0 <= n.
Hypothesis HA : forall l, In l f -> l <> 0 -> iter_of A l = Ok n /\ it_of A l = n.
Hypothesis HB : forall l, In l f -> l <> 0 -> iter_of B l = Ok (n + 1) /\ it_of B l = n + 1.
Hypothesis NA : forall x, In x A -> 0 <= x.
Hypothesis NB : forall x, In x B -> 0 <= x.

Let K := mkarr k0 k1 k2 kv.
Let P := PP ((k0 - 1) / 2) (k0 / 2) ((k1 - 1) / 2) (k1 / 2) ((k2 - 1) / 2) (k2 / 2).

Lemma more : forall F0 FA FB, padded n0 n1 n2 k0 k1 k2 f false = Ok F0 ->
  foldM (dil_iter false A K P) (zrange 0 n) F0 = Ok FA ->
  foldM (dil_iter false B K P) (zrange 0 (n + 1)) F0 = Ok FB ->
  forall p, 0 <= p < n0 * n1 * n2 -> zn (dat (crop P FA)) p <> 0 -> zn (dat (crop P FB)) p = zn (dat (crop P FA)) p.
Proof.
  intros F0 FA FB E0 EA EB p Hp Hz.
  assert (HVA : valid f A) by (intros l Hl H0; destruct (HA l Hl H0) as [E1 E2]; rewrite E1, E2; auto).
  assert (HVB : valid f B).
  { intros l Hl H0; destruct (HB l Hl H0) as [E1 E2]; rewrite E1, E2; split; auto. lia. }
  set (ini := fun h i j : Z => at3 0 (mkarr n0 n1 n2 f) (h - (k0 - 1) / 2) (i - (k1 - 1) / 2) (j - (k2 - 1) / 2)).
  assert (NF : false = true -> fits n0 n1 n2 ((k0 - 1) / 2) (k0 / 2) ((k1 - 1) / 2) (k1 / 2) ((k2 - 1) / 2) (k2 / 2)) by discriminate.
  pose proof (Hpq n0 n1 n2 k0 k1 k2 f kv A false Pk NA) as HP.
  assert (G : forall m, Z.of_nat m <= n -> exists F,
    foldM (dil_iter false A K P) (zseq 0 m) F0 = Ok F /\ foldM (dil_iter false B K P) (zseq 0 m) F0 = Ok F).
  { induction m as [|m IH]; intros Hm; [exists F0; auto|].
    destruct IH as (F & E1 & E2); [lia|]. rewrite !zseq_S, !foldM_app, E1, E2, !bind_Ok. cbn [foldM].
    rewrite Z.add_0_l. destruct (core_run n0 n1 n2 k0 k1 k2 f kv A false Pn Pk Lf NA HVA NF (Z.of_nat m)) as (F0' & F' & E0' & EF' & HI); [lia|].
    rewrite E0 in E0'. injection E0' as <-. unfold zrange in EF'. rewrite Z.sub_0_r, Nat2Z.id in EF'.
    fold K in EF'. fold P in EF'. rewrite E1 in EF'. injection EF' as <-.
    assert (HVal : forall h i j, inner n0 n1 n2 ((k0 - 1) / 2) ((k1 - 1) / 2) ((k2 - 1) / 2) h i j -> ini h i j <> 0 ->
       iter_of A (ini h i j) = Ok (it_of A (ini h i j)) /\ 0 <= it_of A (ini h i j)).
    { intros h i j Hi H0. apply HVA; auto. apply (ini_In n0 n1 n2 k0 k1 k2 f Pn Lf); auto. }
    destruct (iter_ok n0 n1 n2 ((k0 - 1) / 2) (k0 / 2) ((k1 - 1) / 2) (k1 / 2) ((k2 - 1) / 2) (k2 / 2) Pn HP
       K A (it_of A) false ini NF HVal (Z.of_nat m) F ltac:(lia) HI) as (F' & E' & _ & _).
    fold P in E'. rewrite E', bind_Ok. exists F'. split; auto.
    assert (EE : dil_iter false B K P F (Z.of_nat m) = dil_iter false A K P F (Z.of_nat m)); [|rewrite EE, E'; auto].
    unfold dil_iter, P, PP. f_equal. apply foldM_ext. intros G [[h i] j] Hin.
    pose proof (v_shp _ _ _ _ _ _ _ _ _ _ _ _ _ _ _ HI) as HS.
    assert (Hi : inner n0 n1 n2 ((k0 - 1) / 2) ((k1 - 1) / 2) ((k2 - 1) / 2) h i j).
    { apply (points_In n0 n1 n2 ((k0 - 1) / 2) (k0 / 2) ((k1 - 1) / 2) (k1 / 2) ((k2 - 1) / 2) (k2 / 2) F); auto. }
    unfold dil_point. destruct HS as (S0 & S1 & S2 & W).
    rewrite (aget_ok _ 0) by (auto; unfold inr, inner in *; lia). rewrite !bind_Ok.
    destruct (at3 0 F h i j =? 0) eqn:Ez; auto.
    pose proof (v_rch _ _ _ _ _ _ _ _ _ _ _ _ _ _ _ HI h i j (inner_dom n0 n1 n2 _ _ _ _ _ _ HP false _ _ _ Hi) ltac:(lia)) as R.
    apply rch_label in R. destruct R as (h' & i' & j' & Hi' & El).
    assert (Hl : In (at3 0 F h i j) f) by (rewrite <- El; apply (ini_In n0 n1 n2 k0 k1 k2 f Pn Lf); auto).
    destruct (HA _ Hl ltac:(lia)) as [-> _]. destruct (HB _ Hl ltac:(lia)) as [-> _]. rewrite !bind_Ok.
    replace (n + 1 <=? Z.of_nat m) with false by lia. replace (n <=? Z.of_nat m) with false by lia. auto. }
  destruct (G (Z.to_nat n)) as (F & E1 & E2); [lia|].
  unfold zrange in EA. rewrite Z.sub_0_r in EA. rewrite E1 in EA. injection EA as <-.
  rewrite zrange_S in EB by lia. rewrite foldM_app in EB. unfold zrange in EB. rewrite Z.sub_0_r, E2, bind_Ok in EB.
  cbn [foldM] in EB. apply bind_ok in EB. destruct EB as (F' & EB & X). injection X as ->.
  destruct (core_run n0 n1 n2 k0 k1 k2 f kv B false Pn Pk Lf NB HVB NF n Hn) as (F0' & F'' & E0' & EF' & HI).
  rewrite E0 in E0'. injection E0' as <-. unfold zrange in EF'. rewrite Z.sub_0_r in EF'.
  fold K in EF'. fold P in EF'. rewrite E2 in EF'. injection EF' as <-.
  assert (HVal : forall h i j, inner n0 n1 n2 ((k0 - 1) / 2) ((k1 - 1) / 2) ((k2 - 1) / 2) h i j -> ini h i j <> 0 ->
       iter_of B (ini h i j) = Ok (it_of B (ini h i j)) /\ 0 <= it_of B (ini h i j)).
  { intros h i j Hi H0. apply HVB; auto. apply (ini_In n0 n1 n2 k0 k1 k2 f Pn Lf); auto. }
  destruct (iter_ok n0 n1 n2 ((k0 - 1) / 2) (k0 / 2) ((k1 - 1) / 2) (k1 / 2) ((k2 - 1) / 2) (k2 / 2) Pn HP
       K B (it_of B) false ini NF HVal n F Hn HI) as (F1 & E' & HI' & KP).
  fold P in E'. rewrite EB in E'. injection E' as <-.
  pose proof (v_shp _ _ _ _ _ _ _ _ _ _ _ _ _ _ _ HI) as HS. pose proof (v_shp _ _ _ _ _ _ _ _ _ _ _ _ _ _ _ HI') as HS'.
  pose proof (zn_crop n0 n1 n2 k0 k1 k2 Pn F p HS Hp) as Z1. fold P in Z1. rewrite Z1 in Hz |- *.
  pose proof (zn_crop n0 n1 n2 k0 k1 k2 Pn FB p HS' Hp) as Z2. fold P in Z2. rewrite Z2.
  destruct (flat3_encode n0 n1 n2 p) as (X0 & X1 & X2 & X3); try lia.
  apply KP; auto. unfold inner. lia.
Qed.
End More.

Lemma dilate_n_more : forall asrt shape f ks kv n, dilatable_n false shape f ks kv -> 0 <= n ->
  exists ret ret', dilate_n asrt shape f ks kv n false = Ok ret /\ dilate_n asrt shape f ks kv (n + 1) false = Ok ret' /\
  forall p, pixel shape p -> zn ret p <> 0 -> zn ret' p = zn ret p.
Proof.
  intros asrt shape f ks kv n H Hn.
  destruct (dilate_n_ok asrt _ _ _ _ n _ H Hn) as (ret & E & _).
  destruct (dilate_n_ok asrt _ _ _ _ (n + 1) _ H ltac:(lia)) as (ret' & E' & _).
  exists ret, ret'. split; auto. split; auto.
  destruct (dilatable_n_list false shape f ks kv n H Hn) as (m & Em & Hm & Eu & HD & Hlab & Ea).
  destruct (dilatable_n_list false shape f ks kv (n + 1) H ltac:(lia)) as (m' & Em' & _ & _ & _ & _ & Ea').
  rewrite Em in Em'. injection Em' as <-.
  destruct HD as (Hrank & (Hpos & Lf) & HL & (Kpos & Lk) & Hk01 & _ & _ & _ & _).
  unfold dilate_n in E, E'. rewrite Em, bind_Ok, Eu in E, E'.
  set (A := repeat n (Z.to_nat (m + 1))) in *. set (B := repeat (n + 1) (Z.to_nat (m + 1))) in *.
  unfold dilate in E, E'.
  do 4 (apply bind_ok in E; destruct E as (? & _ & E)). do 4 (apply bind_ok in E'; destruct E' as (? & _ & E')).
  destruct (shape3_len shape Hrank) as (n0 & n1 & n2 & Hs).
  destruct (shape3_len ks ltac:(lia)) as (k0 & k1 & k2 & Hk).
  unfold atleast_3d in E, E'. rewrite Hk, Hs, !bind_Ok in E, E'. cbn [d0 d1 d2] in E, E'.
  match goal with X : (if ?c then _ else _) = _ |- _ => destruct c; [discriminate|] end.
  pose proof (shape3_pos _ _ _ _ Hs Hpos) as Pn. pose proof (shape3_kernel _ _ _ _ Hk Kpos) as Pk.
  rewrite (shape3_prod _ _ _ _ Hs) in Lf. rewrite (shape3_prod _ _ _ _ Hk) in Lk. unfold pixel. rewrite (shape3_prod _ _ _ _ Hs).
  rewrite (pad_P k0 k1 k2 Pk) in E, E'. cbv iota in E, E'. rewrite Ea, bind_Ok in E. rewrite Ea', bind_Ok in E'.
  apply bind_ok in E. destruct E as (FA & EA & E). injection E as <-.
  apply bind_ok in E'. destruct E' as (FB & EB & E'). injection E' as <-.
  assert (G : forall v l, In l f -> l <> 0 -> iter_of (repeat v (Z.to_nat (m + 1))) l = Ok v /\ it_of (repeat v (Z.to_nat (m + 1))) l = v).
  { intros v l Hl H0. specialize (Hlab l Hl). unfold iter_of, it_of. rewrite repeat_lenZ.
    destruct (Z.of_nat (Z.to_nat (m + 1)) =? 1) eqn:E1; [exfalso; apply Z.eqb_eq in E1; lia|].
    rewrite vget_ok by (rewrite repeat_lenZ; lia). rewrite zn_repeat by lia. auto. }
  apply (more n0 n1 n2 k0 k1 k2 f kv A B Pn Pk Lf n Hn (G n) (G (n + 1))
    ltac:(intros y Hy; apply repeat_spec in Hy; lia) ltac:(intros y Hy; apply repeat_spec in Hy; lia)
    _ FA FB eq_refl EA EB).
Qed.

(** ** The default kernel *)

Lemma nearest_step : forall asrt shape per, (1 <= length shape <= 2)%nat -> Forall (fun n => 1 <= n) shape ->
  exists kv, nearest asrt (length shape) = Ok (repeat 3 (length shape), kv) /\ kernel (repeat 3 (length shape)) kv /\
  (forall k, In k kv -> k = 0 \/ k = 1) /\
  forall p q, kernel_step per shape (repeat 3 (length shape)) kv p q <->
    (p = q /\ pixel shape p) \/ face_neighbour per shape p q.
Proof.
  intros asrt shape per HL Hpos.
  destruct shape as [|a [|b [|]]]; cbn [length] in HL; try lia.
  - exists [1;1;1]. split; [destruct asrt; reflexivity|]. split; [split; [repeat constructor; lia|reflexivity]|].
    split; [simpl; intros; lia|]. inversion Hpos as [|? ? Ha _]; subst.
    assert (KO : forall d, kernel_offset [3] [1;1;1] d <-> d = [-1] \/ d = [0] \/ d = [1]).
    { intros d. split.
      - intros (r & Hr & _ & M). unfold pixel in Hr. cbn [zprod fold_right] in Hr.
        cbn [coords anchor map] in M. change ((3 - 1) / 2) with 1 in M. change (zprod []) with 1 in M. rewrite Z.div_1_r in M.
        destruct d as [|x [|]]; cbn [moved] in M; try tauto. destruct M as [M _].
        assert (x = -1 \/ x = 0 \/ x = 1) as [->|[->| ->]] by lia; auto.
      - intros [->|[->| ->]]; [exists 0|exists 1|exists 2]; (split; [unfold pixel; cbn; lia|split; reflexivity||(split; [reflexivity|cbn; auto])]). }
    intros p q. unfold kernel_step, face_neighbour, pixel. cbn [length repeat].
    change (zprod [a]) with (a * 1). cbn [coords]. change (zprod []) with 1. rewrite !Z.div_1_r. split.
    + intros (Hp & Hq & d & Hd & M). apply KO in Hd. cbn [moved face].
      destruct Hd as [->|[->| ->]]; cbn [moved] in M; destruct M as [M _]; destruct per.
      * right. split; [auto|split; [auto|]]. right. split; [|auto]. right. rewrite M. f_equal.
      * right. split; [auto|split; [auto|]]. right. split; [|auto]. lia.
      * left. rewrite Z.add_0_r, Z.mod_small in M by lia. split; [auto|lia].
      * left. split; lia.
      * right. split; [auto|split; [auto|]]. right. split; [|auto]. auto.
      * right. split; [auto|split; [auto|]]. right. split; [|auto]. auto.
    + intros [[<- Hp]|(Hp & Hq & M)].
      * split; auto. split; auto. exists [0]. split; [apply KO; auto|]. cbn [moved]. split; auto.
        rewrite Z.add_0_r. destruct per; auto. rewrite Z.mod_small; lia.
      * split; auto. split; auto. cbn [face] in M. destruct M as [[_ []]|[M _]].
        assert (M' : (if per then q = (p + 1) mod a else q = p + 1) \/ (if per then q = (p + -1) mod a else q = p + -1)).
        { destruct per; destruct M as [M|M]; auto. }
        destruct M' as [M'|M']; [exists [1]|exists [-1]]; (split; [apply KO; auto|cbn [moved]; auto]).
  - exists [0;1;0;1;1;1;0;1;0]. split; [destruct asrt; reflexivity|]. split; [split; [repeat constructor; lia|reflexivity]|].
    split; [simpl; intros; lia|]. inversion Hpos as [|? ? Ha Hpos']; subst. inversion Hpos' as [|? ? Hb _]; subst.
    assert (KO : forall d, kernel_offset [3;3] [0;1;0;1;1;1;0;1;0] d <->
      d = [-1;0] \/ d = [0;-1] \/ d = [0;0] \/ d = [0;1] \/ d = [1;0]).
    { intros d. split.
      - intros (r & Hr & Hz & M). unfold pixel in Hr. change (zprod [3;3]) with 9 in Hr.
        assert (r = 0 \/ r = 1 \/ r = 2 \/ r = 3 \/ r = 4 \/ r = 5 \/ r = 6 \/ r = 7 \/ r = 8) as HR by lia.
        destruct d as [|x [|y [|]]]; try (cbn in M; tauto).
        repeat (destruct HR as [->|HR]); try subst r; try discriminate Hz; vm_compute coords in M; cbn [anchor map moved] in M; change ((3 - 1) / 2) with 1 in M;
          destruct M as (M1 & M2 & _);
          (assert (Ex : x = -1 \/ x = 0 \/ x = 1) by lia); (assert (Ey : y = -1 \/ y = 0 \/ y = 1) by lia);
          destruct Ex as [->|[->| ->]]; try (exfalso; lia); destruct Ey as [->|[->| ->]]; try (exfalso; lia); tauto.
      - intros HD. repeat (destruct HD as [->|HD]); try subst d; [exists 1|exists 3|exists 4|exists 5|exists 7];
          (split; [unfold pixel; cbn; lia|split; [reflexivity|cbn; auto]]). }
    intros p q. unfold kernel_step, face_neighbour, pixel. cbn [length repeat].
    assert (EZ : zprod [a; b] = a * b) by (cbn; lia). rewrite EZ. cbn [coords].
    change (zprod []) with 1. assert (EB : zprod [b] = b) by (cbn; lia). rewrite EB, !Z.div_1_r.
    assert (RG : forall x, 0 <= x < a * b -> 0 <= x / b < a /\ 0 <= x mod b < b).
    { intros x Hx. split; [split; [apply Z.div_pos; lia|apply Z.div_lt_upper_bound; lia]|apply Z.mod_pos_bound; lia]. }
    assert (EQ : forall x y, x / b = y / b -> x mod b = y mod b -> x = y).
    { intros x y H1 H2. rewrite (Z.div_mod x b), (Z.div_mod y b), H1, H2 by lia. auto. }
    split.
    + intros (Hp & Hq & d & Hd & M). apply KO in Hd. pose proof (RG p Hp). pose proof (RG q Hq). cbn [face].
      destruct per.
      * assert (S : forall x n, 0 <= x < n -> (x + 0) mod n = x) by (intros; rewrite Z.add_0_r; apply Z.mod_small; auto).
        destruct Hd as [->|[->|[->|[->| ->]]]]; cbn [moved] in M; destruct M as (M1 & M2 & _);
          rewrite ?S in M1 by lia; rewrite ?S in M2 by lia; try solve [left; split; [apply EQ; auto|auto]];
          right; (split; [auto|split; [auto|]]).
        -- right. split; [|congruence]. right. rewrite M1. f_equal; lia.
        -- left. split; [auto|]. right. split; [|auto]. right. rewrite M2. f_equal; lia.
        -- left. split; [auto|]. right. split; [|auto]. auto.
        -- right. split; [|congruence]. auto.
      * destruct Hd as [->|[->|[->|[->| ->]]]]; cbn [moved] in M; destruct M as (M1 & M2 & _);
          rewrite ?Z.add_0_r in M1; rewrite ?Z.add_0_r in M2; try solve [left; split; [apply EQ; auto|auto]];
          right; (split; [auto|split; [auto|]]).
        -- right. split; [|congruence]. right. lia.
        -- left. split; [auto|]. right. split; [|auto]. right. lia.
        -- left. split; [auto|]. right. split; [|auto]. auto.
        -- right. split; [|congruence]. auto.
    + intros [[<- Hp]|(Hp & Hq & M)].
      * split; auto. split; auto. exists [0;0]. split; [apply KO; auto|]. pose proof (RG p Hp). cbn [moved]. rewrite !Z.add_0_r.
        split; [destruct per; [symmetry; apply Z.mod_small; lia|auto]|split; [destruct per; [symmetry; apply Z.mod_small; lia|auto]|auto]].
      * split; auto. split; auto. destruct (RG p Hp). destruct (RG q Hq). cbn [face] in M.
        assert (S : forall x n, 0 <= x < n -> x = (x + 0) mod n) by (intros; rewrite Z.add_0_r; symmetry; apply Z.mod_small; auto).
        destruct M as [[E1 [[_ []]|[M _]]]|[M E]].
        -- destruct per; destruct M as [M|M]; [exists [0;1]|exists [0;-1]|exists [0;1]|exists [0;-1]];
             (split; [apply KO; tauto|]); cbn [moved]; rewrite <- E1; (split; [auto; lia|split; auto]).
        -- injection E as E. destruct per; destruct M as [M|M]; [exists [1;0]|exists [-1;0]|exists [1;0]|exists [-1;0]];
             (split; [apply KO; tauto|]); cbn [moved]; rewrite <- E; (split; [auto|split; [auto; lia|auto]]).
Qed.

Lemma reaches_lazy : forall (adj adj' : Z -> Z -> Prop) S k p, (forall p q, adj p q -> p = q \/ adj' p q) ->
  reaches adj S k p -> reaches adj' S k p.
Proof.
  intros adj adj' S k p HA R. induction R.
  - apply reaches_start; auto.
  - destruct (HA _ _ H) as [->|H']; [eapply reaches_weaken; [exact IHR|lia]|eapply reaches_step; eauto].
Qed.

Lemma dilate_default_n_ok : forall asrt shape f n per, (1 <= length shape <= 2)%nat -> image shape f ->
  (forall l, In l f -> 0 <= l < 2 ^ 62) -> 0 <= n ->
  exists ret, dilate_default_n asrt shape f n per = Ok ret /\ lenZ ret = lenZ f /\
  forall p, pixel shape p -> (zn ret p <> 0 <->
    reaches (face_neighbour per shape) (fun x => pixel shape x /\ zn f x <> 0) n p).
Proof.
  intros asrt shape f n per HL HI Hl Hn.
  destruct (nearest_step asrt shape per HL (proj1 HI)) as (kv & EN & HK & H01 & HS).
  destruct (dilate_n_ok asrt shape f (repeat 3 (length shape)) kv n per) as (ret & E & L & R); auto.
  { unfold dilatable_n. split; [lia|]. split; auto. split; [apply repeat_length|]. split; auto. split; auto. split; auto.
    intros _. destruct HI as [HI _]. clear -HI. induction HI; cbn [length repeat half_fits]; [exact I|].
    split; [change (3 / 2) with 1; auto|auto]. }
  exists ret. split; [|split; auto].
  - unfold dilate_default_n, dilate_default, dilate_n in *. apply bind_ok in E. destruct E as (m & Em & E).
    rewrite Em, bind_Ok, EN, bind_Ok. exact E.
  - intros p Hp. rewrite (R p Hp). split; intros X.
    + eapply reaches_lazy; [|exact X]. intros x y Hxy. apply HS in Hxy. tauto.
    + eapply reaches_lazy; [|exact X]. intros x y Hxy. right. apply HS. auto.
Qed.

(** ** The guard on the number of iterations *)

Lemma dilate_guard_throws : forall shape f ks kv iterations per m,
  (forall l, In l f -> 0 <= l < 2 ^ 62) -> amax f = Ok m -> lenZ iterations + 1 < m ->
  dilate true shape f ks kv iterations per = Throw.
Proof.
  intros shape f ks kv iterations per m Hl Em Hm. unfold dilate, assertb.
  destruct (Nat.leb (length shape) 3); [|reflexivity]. destruct (Nat.eqb (length shape) (length ks)); [|reflexivity].
  destruct (forallb _ kv); [|reflexivity]. rewrite Em, !bind_Ok.
  assert (Hf : f <> []) by (intros ->; discriminate). destruct (amax_ok f Hf) as (m' & Em' & Hin & _).
  rewrite Em in Em'. injection Em' as <-. specialize (Hl m Hin). change (2 ^ 62) with 4611686018427387904 in Hl.
  unfold u64, two64. rewrite Z.mod_small by lia. replace (m <=? lenZ iterations + 1) with false by lia. reflexivity.
Qed.

Lemma dilate_guard : forall shape f ks kv iterations per,
  (dilatable per shape f ks kv iterations ->
     exists ret, dilate true shape f ks kv iterations per = Ok ret) /\
  (forall m, (forall l, In l f -> 0 <= l < 2 ^ 62) -> amax f = Ok m -> lenZ iterations + 1 < m ->
     dilate true shape f ks kv iterations per = Throw).
Proof.
  intros shape f ks kv iterations per. split.
  - intros H. destruct (dilate_ok true _ _ _ _ _ _ H) as (ret & n & E & _). exists ret. exact E.
  - intros. eapply dilate_guard_throws; eauto.
Qed.

Lemma dilate_labels : forall asrt shape f ks kv iterations per,
  dilatable per shape f ks kv iterations ->
  exists ret, dilate asrt shape f ks kv iterations per = Ok ret /\
  forall p, pixel shape p -> zn ret p <> 0 ->
    0 <= zn ret p < lenZ iterations /\
    reaches (kernel_step per shape ks kv) (fun x => pixel shape x /\ zn f x = zn ret p)
      (zn iterations (zn ret p)) p.
Proof.
  intros asrt shape f ks kv iterations per H.
  destruct (dilate_ok asrt _ _ _ _ _ _ H) as (ret & n & E & _ & _ & _ & R & _). exists ret. split; [exact E|].
  intros p Hp Hz. destruct (R p Hp Hz) as [H1 H2]. split; [exact H1|]. eapply reaches_weaken; [exact H2|]. lia.
Qed.
