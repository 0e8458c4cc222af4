(** * TileTop: an image repeated along its axes (proofs only) *)

From Coq Require Import ZArith QArith Qcanon List Bool Lia Permutation.
From Verif Require Import Base BaseLemmas Cluster SpecCluster ClusterGeom ClusterRun ClusterMain SpecDilate SpecPath Path Array3 Array3Lemmas DilateTop Ensemble SpecEnsemble EnsembleSums EnsembleWindow EnsembleAdd EnsembleTop
  EnsembleL EnsembleW2c SpecAlgebra DerivedAlgebra SpecSymmetry DerivedCluster DerivedDilate DerivedEnsemble DerivedLineal SpecMoved SpecPathSym PathSym W2cLaws SpecLinealMoved LinealMoved LinealMovedTop SpecTile.
Import ListNotations.
Open Scope Z_scope.

Definition remain (shape a : list Z) : list Z := map (fun xn => fst xn mod snd xn) (combine a shape).

(** ** Sums over the pixels, axis by axis *)

Lemma zseq_app : forall n m a, zseq a (n + m) = zseq a n ++ zseq (a + Z.of_nat n) m.
Proof.
  induction n as [|n IH]; intros m a; [cbn [Nat.add zseq app]; f_equal; lia|]. cbn [Nat.add zseq app]. rewrite IH. do 3 f_equal. lia.
Qed.

Lemma zseq_shift : forall n a b, zseq (a + b) n = map (fun j => a + j) (zseq b n).
Proof. induction n as [|n IH]; intros a b; [reflexivity|]. cbn [zseq map]. f_equal. rewrite <- IH. f_equal. lia. Qed.

Lemma sum_blocks : forall n m (G : Z -> Qc) a, sum_over (zseq a (n * m)) G = sum_over (zseq 0 n) (fun i => sum_over (zseq 0 m) (fun j => G (a + i * Z.of_nat m + j))).
Proof.
  induction n as [|n IH]; intros m G a; [reflexivity|]. cbn [Nat.mul]. rewrite zseq_app, sum_app. cbn [zseq]. rewrite sum_cons. f_equal.
  - replace a with (a + 0) at 1 by lia. rewrite zseq_shift, sum_map. apply sum_ext. intros j _. f_equal. lia.
  - rewrite IH. replace (0 + 1) with (1 + 0) by lia. rewrite zseq_shift, sum_map. apply sum_ext. intros i _. apply sum_ext. intros j _. f_equal. lia.
Qed.

Lemma sum_axis : forall n rest (G : Z -> Qc), 0 <= n -> 0 <= zprod rest ->
  sum_over (pixels (n :: rest)) G = sum_over (zrange 0 n) (fun i => sum_over (pixels rest) (fun j => G (i * zprod rest + j))).
Proof.
  intros n rest G Hn HR. unfold pixels, zrange. cbn [zprod]. rewrite !Z.sub_0_r, Z2Nat.inj_mul, sum_blocks by auto. apply sum_ext. intros i _. apply sum_ext. intros j _. rewrite Z2Nat.id by auto. reflexivity.
Qed.

(** Numbers modulo [n]. *)
Lemma sum_modulo : forall t n (F : Z -> Qc), 0 <= t -> 0 < n -> sum_over (zrange 0 (t * n)) (fun i => F (i mod n)) = (zq t * sum_over (zrange 0 n) F)%Qc.
Proof.
  intros t n F Ht Hn. unfold zrange. rewrite !Z.sub_0_r, Z2Nat.inj_mul, sum_blocks by lia.
  rewrite (sum_ext _ _ _ (fun _ => (sum_over (zseq 0 (Z.to_nat n)) F * 1)%Qc)).
  - rewrite sum_scale, sum_one. unfold lenZ. rewrite zseq_length, Z2Nat.id by lia. ring.
  - intros i _. rewrite Qcmult_1_r. apply sum_ext. intros j Hj. apply zseq_In in Hj. f_equal. rewrite Z2Nat.id by lia. rewrite Z.add_0_l, Z.add_comm, Z.mod_add by lia. apply Z.mod_small. lia.
Qed.

Lemma zprod_pos : forall l, Forall (fun n => 1 <= n) l -> 1 <= zprod l.
Proof. intros l H. induction H; cbn [zprod]; nia. Qed.

Lemma tiled_pos : forall times shape, Forall (fun n => 1 <= n) times -> Forall (fun n => 1 <= n) shape -> Forall (fun n => 1 <= n) (tiled times shape).
Proof.
  unfold tiled. intros times shape HT. revert shape. induction HT as [|t times Ht HT IH]; intros [|n shape] HS; cbn [combine map]; constructor.
  - inversion HS; subst. cbn [fst snd]. nia.
  - inversion HS; subst. auto.
Qed.

Lemma tiled_length : forall times shape, length times = length shape -> length (tiled times shape) = length shape.
Proof. intros. unfold tiled. rewrite map_length, combine_length. lia. Qed.

Lemma sum_coords : forall times shape (g : list Z -> Qc), length times = length shape -> Forall (fun n => 1 <= n) times -> Forall (fun n => 1 <= n) shape ->
  sum_over (pixels (tiled times shape)) (fun p => g (remain shape (coords (tiled times shape) p))) = (zq (zprod times) * sum_over (pixels shape) (fun p => g (coords shape p)))%Qc.
Proof.
  induction times as [|t times IH]; intros [|n shape] g HL HT HS; try discriminate.
  - change (g [] + 0 = zq 1 * (g [] + 0))%Qc. rewrite zq_1. ring.
  - inversion HT as [|? ? Ht HT']; subst. inversion HS as [|? ? Hn HS']; subst. change (tiled (t :: times) (n :: shape)) with (t * n :: tiled times shape).
    pose proof (zprod_pos _ (tiled_pos _ _ HT' HS')) as P1. pose proof (zprod_pos _ HS') as P2. pose proof (zprod_pos _ HT') as P3.
    rewrite !sum_axis by nia. cbn [zprod].
    set (S := fun i => sum_over (pixels shape) (fun j => g (i :: coords shape j))).
    rewrite (sum_ext _ (zrange 0 (t * n)) _ (fun i => (zq (zprod times) * S (i mod n))%Qc)).
    + rewrite sum_scale, (sum_modulo t n S) by lia. rewrite zq_mult. unfold S. rewrite (sum_ext _ (zrange 0 n) _ (fun i => sum_over (pixels shape) (fun j => g (coords (n :: shape) (i * zprod shape + j))))).
      * ring.
      * intros i _. apply sum_ext. intros j Hj. apply zrange_In in Hj. cbn [coords]. rewrite Z.add_comm, Z.div_add, Z.mod_add, Z.div_small, Z.mod_small by lia. reflexivity.
    + intros i _. unfold S. rewrite <- (IH shape (fun l => g (i mod n :: l))) by (auto; cbn in HL; lia). apply sum_ext. intros j Hj. apply zrange_In in Hj.
      cbn [coords]. rewrite Z.add_comm, Z.div_add, Z.mod_add, Z.div_small, Z.mod_small by lia. reflexivity.
Qed.

(** ** Copies *)

Lemma remain_inside : forall shape a, length a = length shape -> Forall (fun n => 0 < n) shape -> inside shape (remain shape a).
Proof.
  unfold remain. induction shape as [|n shape IH]; intros [|x a] HL HP; try discriminate; [exact I|]. inversion HP; subst. cbn [combine map inside fst snd].
  split; [apply Z.mod_pos_bound; auto|]. apply IH; auto.
Qed.

Section Copies.
Variables (times shape : list Z).
Hypothesis HL : length times = length shape.
Hypothesis HT : Forall (fun n => 1 <= n) times.
Hypothesis HS : Forall (fun n => 1 <= n) shape.

Let T := copy_of times shape.
Let big := tiled times shape.

Lemma big_length : length big = length shape.
Proof. apply tiled_length; auto. Qed.

Lemma small_pos : Forall (fun n => 0 < n) shape.
Proof. eapply Forall_impl; [|exact HS]. cbn beta. intros. lia. Qed.
Lemma big_pos : Forall (fun n => 0 < n) big.
Proof. eapply Forall_impl; [|apply (tiled_pos times shape HT HS)]. cbn beta. intros. lia. Qed.

Lemma has_copy : forall p', pixel big p' -> exists p, T p p'.
Proof.
  intros p' Hp. destruct (pixel_of_coords shape (remain shape (coords big p'))) as (p & Hp' & E); [apply remain_inside; [rewrite coords_length; apply big_length|apply small_pos]|].
  exists p. repeat (split; auto).
Qed.

Lemma sum_copies : forall F G, (forall p p', T p p' -> F p = G p') -> sum_over (pixels big) G = (zq (zprod times) * sum_over (pixels shape) F)%Qc.
Proof.
  intros F G H. transitivity (sum_over (pixels big) (fun p' => F (ravel shape (remain shape (coords big p'))))).
  - apply sum_ext. intros p' IN. apply zrange_In in IN. destruct (has_copy p' IN) as (p & Hp). symmetry. rewrite <- (H p p' Hp). f_equal. destruct Hp as (Hp & _ & E). unfold remain. fold big in E. rewrite <- E. apply ravel_coords; auto using small_pos.
  - unfold big. rewrite (sum_coords times shape (fun l => F (ravel shape l))) by auto. f_equal. apply sum_ext. intros p IN. apply zrange_In in IN. f_equal. apply ravel_coords; auto using small_pos.
Qed.

Lemma moved_wrap : forall (ts s a d b : list Z), Forall (fun n => 1 <= n) ts -> Forall (fun n => 1 <= n) s -> length ts = length s -> moved true (tiled ts s) a d b ->
  moved true s (remain s a) d (remain s b).
Proof.
  unfold remain, tiled. induction ts as [|t ts IH]; intros [|n s] a d b H1 H2 HL' M; try discriminate; cbn [combine map moved] in M |- *.
  - destruct a, d, b; try tauto.
  - destruct a as [|x a], d as [|u d], b as [|y b]; try tauto. inversion H1; subst. inversion H2; subst. destruct M as [M0 M]. cbn [fst snd combine map moved] in *.
    split; [|apply IH; auto]. rewrite M0. rewrite Zplus_mod_idemp_l. rewrite (Z.mul_comm t n). rewrite Z.rem_mul_r by lia. rewrite (Z.mul_comm n), Z.mod_add, Z.mod_mod by lia. reflexivity.
Qed.

(** The pixel at an offset of a copy is a copy of the pixel at that offset. *)
Lemma copies_moved : forall d p p', length d = length shape -> T p p' ->
  exists q q', T q q' /\ moved true shape (coords shape p) d (coords shape q) /\ moved true big (coords big p') d (coords big q').
Proof.
  intros d p p' Hd (Hp & Hp' & E). fold big in Hp', E.
  destruct (moved_total big (coords big p') d) as (b & Hb & M); [apply big_pos|apply coords_inside; auto using big_pos|rewrite big_length; auto|].
  destruct (pixel_of_coords big b Hb) as (q' & Hq' & <-). destruct (has_copy q' Hq') as (q & Hq). exists q, q'. split; auto. split; auto.
  destruct Hq as (_ & _ & E'). fold big in E'. rewrite E, E'. apply (moved_wrap times); auto.
Qed.

Lemma moved_one : forall s a d b b', moved true s a d b -> moved true s a d b' -> b = b'.
Proof.
  induction s as [|n s IH]; intros [|x a] [|t d] [|y b] [|y' b'] M M'; cbn [moved] in M, M'; try tauto. destruct M as [-> M], M' as [-> M']. f_equal. eapply IH; eauto.
Qed.

Lemma pick_one : forall s (x0 : Z) d q (F : Z -> Qc), Forall (fun n => 0 < n) s -> pixel s q -> moved true s (coords s x0) d (coords s q) ->
  sum_over (pixels s) (fun y => if movedb true s (coords s x0) d (coords s y) then F y else 0%Qc) = F q.
Proof.
  intros s x0 d q F HP Hq M. rewrite (sum_ext _ _ _ (fun y => if y =? q then F y else 0%Qc)).
  - rewrite <- sum_filter. assert (E : filter (fun y => y =? q) (pixels s) = [q]).
    { pose proof (zrange_NoDup 0 (zprod s)) as N. fold (pixels s) in N. assert (IN : In q (pixels s)) by (apply zrange_In; exact Hq).
      clear -N IN. induction N as [|x l NI N IH]; [destruct IN|]. cbn [filter]. destruct (Z.eqb_spec x q) as [->|NE].
      - f_equal. apply filter_none. intros y Hy. apply Z.eqb_neq. intros ->. contradiction.
      - apply IH. destruct IN; [contradiction|auto]. }
    rewrite E, sum_cons. cbn [sum_over fold_right]. ring.
  - intros y IN. apply zrange_In in IN. replace (movedb true s (coords s x0) d (coords s y)) with (y =? q); auto. apply bool_iff. rewrite movedb_iff, Z.eqb_eq.
    split; [intros ->; auto|]. intros M'. apply (coords_inj s); auto. eapply moved_one; eauto.
Qed.

Lemma sum_at : forall d p p' F G, length d = length shape -> T p p' -> (forall q q', T q q' -> F q = G q') ->
  sum_over (pixels big) (fun y => if movedb true big (coords big p') d (coords big y) then G y else 0%Qc) =
  sum_over (pixels shape) (fun y => if movedb true shape (coords shape p) d (coords shape y) then F y else 0%Qc).
Proof.
  intros d p p' F G Hd Hp H. destruct (copies_moved d p p' Hd Hp) as (q & q' & Hq & M & M').
  rewrite (pick_one big p' d q') by (auto using big_pos; apply Hq). rewrite (pick_one shape p d q) by (auto using small_pos; apply Hq). symmetry. auto.
Qed.

Lemma sum_pairs_copies : forall d F G, length d = length shape -> (forall p p' q q', T p p' -> T q q' -> F (p, q) = G (p', q')) ->
  sum_over (pairs true big d) G = (zq (zprod times) * sum_over (pairs true shape d) F)%Qc.
Proof.
  intros d F G Hd H. unfold pairs. rewrite !sum_filter, !sum_prod. cbn [fst snd]. apply sum_copies. intros p p' Hp. symmetry.
  apply (sum_at d p p' (fun y => F (p, y)) (fun y => G (p', y))); auto.
Qed.

Lemma phase_one : forall s (x0 : Z) d q f, Forall (fun n => 0 < n) s -> pixel s q -> moved true s (coords s x0) d (coords s q) ->
  in_phase true s f x0 d = negb (zn f q =? 0).
Proof.
  intros s x0 d q f HP Hq M. apply bool_iff. unfold in_phase. rewrite existsb_exists. split.
  - intros (y & IN & H). apply andb_true_iff in H. destruct H as [H1 H2]. apply zrange_In in IN. apply movedb_iff in H1. replace q with y; auto. apply (coords_inj s); auto. eapply moved_one; eauto.
  - intros H. exists q. split; [apply zrange_In; exact Hq|]. rewrite H, andb_true_r. apply movedb_iff. exact M.
Qed.

Lemma phase_copies : forall f f' p p' d, length d = length shape -> T p p' -> carried T f f' -> in_phase true big f' p' d = in_phase true shape f p d.
Proof.
  intros f f' p p' d Hd Hp HC. destruct (copies_moved d p p' Hd Hp) as (q & q' & Hq & M & M').
  rewrite (phase_one big p' d q'), (phase_one shape p d q) by (auto using big_pos, small_pos; apply Hq). rewrite (carried_zn _ _ _ HC _ _ Hq). reflexivity.
Qed.

Lemma value_copies : forall f f' p p' d, length d = length shape -> T p p' -> carried T f f' -> value_at true big f' p' d = value_at true shape f p d.
Proof.
  intros f f' p p' d Hd Hp HC. unfold value_at. rewrite !sum_filter. apply (sum_at d p p' (qn f) (qn f')); auto. intros q q' Hq. symmetry. apply (carried_qn _ _ _ HC _ _ Hq).
Qed.
End Copies.

(** ** Results *)

Lemma tiled_fits : forall times shape roi, Forall (fun n => 1 <= n) times -> Forall (fun n => 1 <= n) shape -> length times = length shape -> half_fits shape roi -> half_fits (tiled times shape) roi.
Proof.
  unfold tiled. induction times as [|t times IH]; intros [|n shape] roi HT HS HL HF; try discriminate; [exact HF|]. inversion HT; subst. inversion HS; subst.
  destruct roi as [|k roi]; [exact I|]. cbn [combine map half_fits fst snd] in *. split; [nia|]. apply IH; auto. apply HF.
Qed.

Lemma tiled_shapes : forall roi times shape, length times = length shape -> Forall (fun n => 1 <= n) times -> shapes true roi shape -> shapes true roi (tiled times shape).
Proof.
  intros roi times shape HL HT (H1 & H2 & H3 & H4 & H5). split; [rewrite tiled_length; auto|]. split; [rewrite tiled_length; auto|]. split; auto. split; [apply tiled_pos; auto|].
  intros HP. apply tiled_fits; auto.
Qed.

Lemma le_case : forall n, (0 <= n)%Qc -> n = 0%Qc \/ (0 < n)%Qc.
Proof. intros n H. apply Qcle_lt_or_eq in H. destruct H; auto. Qed.

Lemma zq_pos : forall m, 1 <= m -> (0 < zq m)%Qc.
Proof. intros m H. rewrite <- zq_0. apply zq_lt. lia. Qed.

Lemma safe_scaled : forall m f n, 1 <= m -> (0 <= n)%Qc -> (n = 0 -> f = 0)%Qc -> (zq m * f / safe (zq m * n) = f / safe n)%Qc.
Proof.
  intros m f n Hm Hn H. destruct (le_case n Hn) as [-> |LT].
  - rewrite (H eq_refl). rewrite Qcmult_0_r. unfold Qcdiv. rewrite !Qcmult_0_l. reflexivity.
  - pose proof (zq_pos m Hm) as LM. assert (LMN : (0 < zq m * n)%Qc) by (rewrite <- (Qcmult_0_l n); apply Qcmult_lt_compat_r; auto).
    unfold safe. apply Qclt_b_iff in LT as E1. apply Qclt_b_iff in LMN as E2. rewrite E1, E2. field. split; intros X; [rewrite X in LT; exact (Qclt_not_eq _ _ LT eq_refl)|rewrite X in LM; exact (Qclt_not_eq _ _ LM eq_refl)].
Qed.

Lemma no_mask_mask : forall c, no_mask c -> forall var fm gm T1 T2 TN, terms var c = (fm, gm, T1, T2, TN) -> forall p, zn fm p = 0 /\ zn gm p = 0.
Proof.
  intros c NM var fm gm T1 T2 TN E p. destruct c; cbn [no_mask] in NM; try contradiction.
  - destruct masks; [contradiction|]. cbn [terms mask2 fst snd zeros i_vals] in E. injection E as <- <- _ _ _. rewrite zn_repeat0. auto.
  - destruct masks; [contradiction|]. cbn [terms mask2 fst snd zeros i_vals] in E. injection E as <- <- _ _ _. rewrite zn_repeat0. auto.
  - destruct fmask; [contradiction|]. cbn [terms mask1 zeros i_vals] in E. injection E as <- <- _ _ _. rewrite zn_nil, zn_repeat0. auto.
  - destruct fmask; [contradiction|]. cbn [terms mask1 zeros i_vals] in E. injection E as <- <- _ _ _. rewrite zn_repeat0. auto.
Qed.

Lemma qn_nonneg : forall l p, Forall (fun x => 0 <= x)%Qc l -> (0 <= qn l p)%Qc.
Proof.
  intros l p H. unfold qn. destruct (nth_in_or_default (Z.to_nat p) l 0%Qc) as [IN| ->]; [rewrite Forall_forall in H; auto|]. apply Qcle_refl.
Qed.

Lemma terms_zero : forall var c fm gm T1 T2 TN, not_negative c -> terms var c = (fm, gm, T1, T2, TN) -> no_mask c -> forall pq, (0 <= TN pq)%Qc /\ (TN pq = 0 -> T1 pq = 0)%Qc.
Proof.
  intros var c fm gm T1 T2 TN HN E NM pq. assert (O : (0 <= 1)%Qc /\ 1%Qc <> 0%Qc) by (split; [rewrite <- zq_0, <- zq_1; apply zq_le; lia|discriminate]).
  destruct c; cbn [no_mask] in NM; try contradiction; cbn [terms] in E; injection E as _ _ <- _ <-; try (split; [apply O|intros X; destruct O; contradiction]).
  cbn [not_negative] in HN. split; [apply qn_nonneg; auto|]. intros ->. ring.
Qed.

Lemma tile_two_point : forall asrt var roi times shape c c', shapes true roi shape -> length times = length shape -> Forall (fun n => 1 <= n) times ->
  carried_call (copy_of times shape) shape (tiled times shape) c c' -> no_mask c -> not_negative c ->
  exists e e', fresh asrt roi true var c = Ok e /\ fresh asrt roi true var c' = Ok e' /\
    forall r, pixel roi r -> multiplied (zprod times) e e' r.
Proof.
  intros asrt var roi times shape c c' HS HL HT HC NM NN. pose proof (tiled_shapes roi times shape HL HT HS) as HS'. assert (HP : Forall (fun n => 1 <= n) shape) by apply HS.
  destruct (carried_pair_call _ shape (tiled times shape) c c' HP (tiled_pos _ _ HT HP) HC) as (P & P' & ES).
  destruct (terms var c) as [[[[fm gm] T1] T2] TN] eqn:E. destruct (terms var c') as [[[[fm' gm'] T1'] T2'] TN'] eqn:E'.
  destruct (carried_terms _ var shape _ c c' _ _ _ _ _ _ _ _ _ _ HC E E') as [HZ HE].
  destruct (pair_call_ok asrt true var roi shape c _ _ _ _ _ HS P E) as (e & Ee & S1 & V).
  destruct (pair_call_ok asrt true var roi (tiled times shape) c' _ _ _ _ _ HS' P' E') as (e' & Ee' & S1' & V').
  exists e, e'. split; auto. split; auto. intros r Hr. destruct (V r Hr) as (A1 & A2 & A3 & A4). destruct (V' r Hr) as (B1 & B2 & B3 & B4). cbv zeta in *.
  set (d := offset roi r) in *.
  assert (LD : length d = length shape).
  { unfold d, offset, diff. rewrite map_length, combine_length, coords_length, anchor_length. destruct HS as (HL' & _). lia. }
  assert (NM' : no_mask c') by (clear -NM HC; destruct c, c'; cbn in *; try contradiction; repeat match goal with m : option _ |- _ => destruct m end; cbn in *; tauto).
  pose proof (no_mask_mask c NM _ _ _ _ _ _ E) as Z0. pose proof (no_mask_mask c' NM' _ _ _ _ _ _ E') as Z0'.
  assert (FI : forall (A : Type) (b : A -> bool) l, (forall x, b x = true) -> filter b l = l).
  { intros A b l HB. induction l as [|x l IH]; [reflexivity|]. cbn [filter]. rewrite HB, IH. reflexivity. }
  rewrite FI in A1, A2, A3, B1, B2, B3 by (intros [p q]; unfold seen; cbn [fst snd]; rewrite ?(proj1 (Z0 p)), ?(proj2 (Z0 q)), ?(proj1 (Z0' p)), ?(proj2 (Z0' q)); reflexivity).
  assert (X1 : first_at e' r = (zq (zprod times) * first_at e r)%Qc) by (rewrite A1, B1; apply (sum_pairs_copies times shape HL HT HP); auto; intros; apply HE; auto).
  assert (X2 : second_at e' r = (zq (zprod times) * second_at e r)%Qc) by (rewrite A2, B2; apply (sum_pairs_copies times shape HL HT HP); auto; intros; apply HE; auto).
  assert (X3 : norm_at e' r = (zq (zprod times) * norm_at e r)%Qc) by (rewrite A3, B3; apply (sum_pairs_copies times shape HL HT HP); auto; intros; apply HE; auto).
  split; auto. split; auto. split; auto. rewrite A4, B4, X1, X3, ES. unfold value_of. rewrite safe_scaled; auto; [apply zprod_pos; auto|rewrite A3; apply sum_nonneg; intros x _; apply (terms_zero var c _ _ _ _ _ NN E NM)|].
  intros N0. rewrite A1. rewrite A3 in N0. rewrite (sum_ext _ _ _ (fun _ => 0%Qc)); [apply sum_zero|]. intros x IN.
  apply (terms_zero var c _ _ _ _ _ NN E NM). eapply sum_zero_all; eauto. intros y _. apply (terms_zero var c _ _ _ _ _ NN E NM).
Qed.

(** ** Along paths *)

Lemma three_tiled : forall times shape, length times = length shape -> (length shape <= 3)%nat -> three (tiled times shape) = tiled (three times) (three shape).
Proof.
  intros times shape HL H3. destruct times as [|t0 [|t1 [|t2 [|t3 times]]]], shape as [|n0 [|n1 [|n2 [|n3 shape]]]]; cbn in HL, H3; try lia; reflexivity.
Qed.

Lemma pos3 : forall l, Forall (fun n => 1 <= n) l -> Forall (fun n => 1 <= n) (three l).
Proof. intros [|a [|b [|c [|d l]]]] H; cbn [three]; auto; repeat match goal with HF : Forall _ (_ :: _) |- _ => inversion HF; clear HF; subst end; repeat constructor; auto; lia. Qed.

Lemma zprod3 : forall l, zprod (three l) = zprod l.
Proof. intros [|a [|b [|c [|d l]]]]; cbn [three zprod]; lia. Qed.

Lemma copy3 : forall times shape p p', length times = length shape -> (length shape <= 3)%nat -> Forall (fun n => 1 <= n) times -> Forall (fun n => 1 <= n) shape ->
  copy_of times shape p p' -> copy_of (three times) (three shape) p p'.
Proof.
  intros times shape p p' HL H3 HT HS (Hp & Hp' & E). unfold copy_of. rewrite <- three_tiled by auto.
  split; [apply pixel_three; auto|]. split; [apply pixel_three; auto; rewrite tiled_length; auto|].
  rewrite !coords_three by (auto; try (rewrite tiled_length; auto); apply tiled_pos; auto). rewrite E.
  pose proof (coords_length (tiled times shape) p') as LC. rewrite tiled_length in LC by auto.
  destruct shape as [|n0 [|n1 [|n2 [|n3 shape]]]]; [| | | |cbn in H3; lia]; destruct (coords _ p') as [|x0 [|x1 [|x2 [|x3 x]]]]; try discriminate; reflexivity.
Qed.

Lemma carried3 : forall A times shape (f f' : list A), carried (copy_of times shape) f f' -> length times = length shape -> (length shape <= 3)%nat -> Forall (fun n => 1 <= n) times -> Forall (fun n => 1 <= n) shape ->
  carried (copy_of (three times) (three shape)) f f'.
Proof.
  intros A times shape f f' H HL H3 HT HS p p' (Hp & Hp' & E). apply H.
  assert (P : pixel shape p /\ pixel (tiled times shape) p').
  { rewrite <- three_tiled in Hp' by auto. unfold pixel in *. rewrite zprod3 in *. auto. }
  destruct P as [P P']. split; auto. split; auto. rewrite <- three_tiled in E by auto.
  rewrite !coords_three in E by (auto; try (rewrite tiled_length; auto); apply tiled_pos; auto).
  pose proof (coords_length (tiled times shape) p') as LC. rewrite tiled_length in LC by auto. pose proof (coords_length shape p) as LC'.
  destruct shape as [|n0 [|n1 [|n2 [|n3 shape]]]]; [| | | |cbn in H3; lia]; destruct (coords _ p') as [|x0 [|x1 [|x2 [|x3 x]]]]; try discriminate; destruct (coords _ p) as [|y0 [|y1 [|y2 [|y3 y]]]]; try discriminate;
    cbn [three lift combine map fst snd] in E |- *; congruence.
Qed.

Lemma sum_prod_copies : forall times shape (paths : list (list (list Z))) (F G : list (list Z) -> Z -> Qc), length times = length shape -> Forall (fun n => 1 <= n) times -> Forall (fun n => 1 <= n) shape ->
  (forall rows p p', In rows paths -> copy_of times shape p p' -> F rows p = G rows p') ->
  sum_over (list_prod paths (pixels (tiled times shape))) (fun c => G (fst c) (snd c)) = (zq (zprod times) * sum_over (list_prod paths (pixels shape)) (fun c => F (fst c) (snd c)))%Qc.
Proof.
  intros times shape paths F G HL HT HS H. rewrite !sum_prod. rewrite <- sum_scale. apply sum_ext. intros rows IN. cbn [fst snd]. apply (sum_copies times shape HL HT HS). auto.
Qed.

Lemma reaches_ext : forall (g g' : list Z -> bool) d rows, (forall x, In x rows -> g x = g' x) -> SpecEnsemble.reaches g d rows = SpecEnsemble.reaches g' d rows.
Proof.
  intros g g' d. induction rows as [|x rows IH]; intros H; [reflexivity|]. cbn [SpecEnsemble.reaches]. rewrite (H x) by now left. rewrite IH by (intros; apply H; right; auto). reflexivity.
Qed.

Lemma quotient_safe : forall s n, (0 <= n)%Qc -> (n = 0 -> s = 0)%Qc -> quotient s n = (s / safe n)%Qc.
Proof.
  intros s n Hn H. destruct (le_case n Hn) as [-> |LT].
  - rewrite (H eq_refl). unfold quotient, Qcdiv. rewrite Qcmult_0_l. destruct (Qceq_b 0%Qc 0%Qc); rewrite ?Qcmult_0_l; reflexivity.
  - unfold quotient, safe. apply Qclt_b_iff in LT as E1. rewrite E1. destruct (Qceq_b n 0%Qc) eqn:E; auto. apply Qceq_b_iff in E. subst. exfalso. exact (Qclt_not_eq _ _ LT eq_refl).
Qed.

Lemma reaches_visits : forall g d rows, SpecEnsemble.reaches g d rows = true -> visits d rows = true.
Proof.
  intros g d. unfold visits. induction rows as [|x rows IH]; intros H; [discriminate|]. cbn [SpecEnsemble.reaches existsb] in *. apply andb_true_iff in H. destruct H as [_ H].
  apply orb_true_iff in H. apply orb_true_iff. destruct H; auto.
Qed.

Lemma step_nonneg : forall per shape cl ce fm d rows p, (0 <= step_sum per shape cl ce (fun _ _ => 1%Qc) fm d rows p)%Qc.
Proof.
  intros. unfold step_sum. destruct (cluster_centre _ _ _); [|apply Qcle_refl]. apply sum_nonneg. intros. destruct (_ && _); [rewrite <- zq_0, <- zq_1; apply zq_le; lia|apply Qcle_refl].
Qed.

Lemma b2q_nonneg : forall b, (0 <= b2q b)%Qc.
Proof. intros []; cbn [b2q]; [rewrite <- zq_0, <- zq_1; apply zq_le; lia|apply Qcle_refl]. Qed.

Lemma tile_walk : forall asrt var roi times shape c c', shapes true roi shape -> length times = length shape -> Forall (fun n => 1 <= n) times ->
  carried_walk (copy_of times shape) shape (tiled times shape) c c' -> walks_in roi c ->
  exists e e', fresh asrt roi true var c = Ok e /\ fresh asrt roi true var c' = Ok e' /\
    forall r, pixel roi r -> multiplied (zprod times) e e' r.
Proof.
  intros asrt var roi times shape c c' HS HL HT HC HW. pose proof (tiled_shapes roi times shape HL HT HS) as HS'. assert (HP : Forall (fun n => 1 <= n) shape) by apply HS. assert (H3 : (length shape <= 3)%nat) by apply HS.
  destruct (shapes_dims3 _ _ _ HS) as (n0 & n1 & n2 & k0 & k1 & k2 & HD). destruct (shapes_dims3 _ _ _ HS') as (n0' & n1' & n2' & k0' & k1' & k2' & HD').
  assert (EK : k0' = k0 /\ k1' = k1 /\ k2' = k2). { pose proof (D_k _ _ _ _ _ _ _ _ _ HD) as E1. pose proof (D_k _ _ _ _ _ _ _ _ _ HD') as E2. rewrite E1 in E2. injection E2; auto. }
  destruct EK as (-> & -> & ->).
  assert (L3 : length (three shape) = 3%nat) by (rewrite (three_eq shape n0 n1 n2) by apply HD; reflexivity).
  assert (HL3 : length (three times) = length (three shape)).
  { rewrite L3. clear -HL H3. rewrite <- HL in H3. destruct times as [|t0 [|t1 [|t2 [|t3 times]]]]; cbn in H3; try lia; reflexivity. }
  pose proof (pos3 _ HT) as HT3. pose proof (pos3 _ HP) as HP3.
  destruct c, c'; cbn [carried_walk walks_in] in *; try contradiction.
  - destruct HC as ((Icl & Icl' & Ccl) & (Ice & Ice' & Cce) & (If & If' & Cf) & CM & ->). destruct HW as [HW HE].
    assert (CM' : carried_mask (copy_of times shape) shape (tiled times shape) (mask1 f fmask) (mask1 f0 fmask0)).
    { destruct fmask, fmask0; cbn [carried_option mask1] in *; try contradiction; auto. destruct If as (-> & _), If' as (-> & _). apply carried_zeros; auto; [apply tiled_pos; auto|]. intros p q H. split; apply H. }
    destruct CM' as (Im & Im' & Cm).
    destruct (W2c_explicit asrt true var _ _ mode _ _ _ _ _ _ HD HW HE clusters centers f (mask1 f fmask) Icl Ice If Im) as (e & E & SH & V).
    destruct (W2c_explicit asrt true var _ _ mode _ _ _ _ _ _ HD' HW HE clusters0 centers0 f0 (mask1 f0 fmask0) Icl' Ice' If' Im') as (e' & E' & SH' & V').
    exists e, e'. split; [exact E|]. split; [exact E'|]. intros r Hr. destruct (V r Hr) as (V1 & V2 & V3 & V4). destruct (V' r Hr) as (W1 & W2 & W3 & W4).
    pose proof (the_paths_length true _ _ mode _ _ _ _ _ _ HD HW) as PL.
    assert (ST : forall (G G' : Z -> list Z -> Qc) d rows p p', (forall x, In x rows -> length x = 3%nat) -> copy_of times shape p p' -> (forall x, length x = 3%nat -> G' p' x = G p x) ->
      step_sum true shape (i_vals clusters) (i_vals centers) G (i_vals (mask1 f fmask)) d rows p = step_sum true (tiled times shape) (i_vals clusters0) (i_vals centers0) G' (i_vals (mask1 f0 fmask0)) d rows p').
    { intros G G' d rows p p' LR Hp HG. unfold step_sum, cluster_centre. rewrite (carried_zn _ _ _ Ccl _ _ Hp), (carried_zn _ _ _ Cce _ _ Hp). destruct (_ && _); [|reflexivity].
      apply sum_ext. intros [a b] IN. cbn [fst snd]. assert (Lb : length b = 3%nat) by (apply LR; apply in_combine_r in IN; destruct rows; [destruct IN|right; auto]).
      rewrite three_tiled by auto. rewrite (phase_copies (three times) (three shape) HL3 HT3 HP3 (i_vals (mask1 f fmask)) (i_vals (mask1 f0 fmask0)) p p' b); auto; [rewrite HG by auto; reflexivity|lia|apply copy3; auto|apply carried3; auto]. }
    assert (X1 : first_at e' r = (zq (zprod times) * first_at e r)%Qc).
    { rewrite V1, W1. apply (sum_prod_copies times shape _ _ _ HL HT HP). intros rows p p' IN Hp. apply ST; auto; [intros; eapply PL; eauto|].
      intros x LX. rewrite three_tiled by auto. apply (value_copies (three times) (three shape)); auto; [lia|apply copy3; auto|apply carried3; auto]. }
    assert (X3 : norm_at e' r = (zq (zprod times) * norm_at e r)%Qc).
    { rewrite V3, W3. apply (sum_prod_copies times shape _ (fun rows p => step_sum true shape (i_vals clusters) (i_vals centers) (fun _ _ => 1%Qc) (i_vals (mask1 f fmask)) (offset (three roi) r) rows p)
        (fun rows p => step_sum true (tiled times shape) (i_vals clusters0) (i_vals centers0) (fun _ _ => 1%Qc) (i_vals (mask1 f0 fmask0)) (offset (three roi) r) rows p) HL HT HP). intros rows p p' IN Hp. apply ST; auto. intros; eapply PL; eauto. }
    split; auto. split; [rewrite V2, W2; ring|]. split; auto. rewrite V4, W4, X1, X3, safe_scaled; auto; [apply zprod_pos; auto|rewrite V3; apply sum_nonneg; intros [rows' p''] _; cbn [fst snd]; apply step_nonneg|].
    intros N0. rewrite V3 in N0. rewrite V1. rewrite (sum_ext _ _ _ (fun _ => 0%Qc)); [apply sum_zero|]. intros [rows p] IN.
    assert (NN : forall ab, (0 <= (if same_offset (offset (three roi) r) (fst ab) && negb (in_phase true (three shape) (i_vals (mask1 f fmask)) p (snd ab)) then 1%Qc else 0%Qc))%Qc).
    { intros ab. destruct (_ && _); [rewrite <- zq_0, <- zq_1; apply zq_le; lia|apply Qcle_refl]. }
    eapply sum_zero_all in N0; [|intros [rows' p''] _; cbn [fst snd]; apply step_nonneg|exact IN].
    cbn [fst snd] in *. unfold step_sum in *. destruct (cluster_centre _ _ _); [|reflexivity]. rewrite (sum_ext _ _ _ (fun _ => 0%Qc)); [apply sum_zero|]. intros ab IA.
    eapply sum_zero_all in N0; [|intros x _; apply (NN x)|exact IA]. cbn beta in N0. destruct (_ && _); [discriminate|reflexivity].
  - destruct HC as ((If & If' & Cf) & ->).
    destruct (L_explicit asrt true var _ _ mode _ _ _ _ _ _ HD HW f If) as (e & E & SH & V).
    destruct (L_explicit asrt true var _ _ mode _ _ _ _ _ _ HD' HW f0 If') as (e' & E' & SH' & V').
    exists e, e'. split; auto. split; auto. intros r Hr. destruct (V r Hr) as (V1 & V2 & V3 & V4). destruct (V' r Hr) as (W1 & W2 & W3 & W4).
    pose proof (the_paths_length true _ _ mode _ _ _ _ _ _ HD HW) as PL.
    assert (X1 : first_at e' r = (zq (zprod times) * first_at e r)%Qc).
    { rewrite V1, W1. apply (sum_prod_copies times shape _ (fun rows p => b2q (SpecEnsemble.reaches (in_phase true (three shape) (i_vals f) p) (offset (three roi) r) rows))
        (fun rows p => b2q (SpecEnsemble.reaches (in_phase true (three (tiled times shape)) (i_vals f0) p) (offset (three roi) r) rows)) HL HT HP). intros rows p p' IN Hp. f_equal. apply reaches_ext. intros x IX.
      rewrite three_tiled by auto. symmetry. apply (phase_copies (three times) (three shape)); auto; [rewrite L3; eapply PL; eauto|apply copy3; auto|apply carried3; auto]. }
    assert (X3 : norm_at e' r = (zq (zprod times) * norm_at e r)%Qc).
    { rewrite V3, W3. apply (sum_prod_copies times shape _ (fun rows p => b2q (visits (offset (three roi) r) rows)) (fun rows p => b2q (visits (offset (three roi) r) rows)) HL HT HP). auto. }
    assert (Z0 : norm_at e r = 0%Qc -> first_at e r = 0%Qc).
    { intros N0. rewrite V3 in N0. rewrite V1. rewrite (sum_ext _ _ _ (fun _ => 0%Qc)); [apply sum_zero|]. intros [rows p] IN.
      eapply sum_zero_all in N0; [|intros x _; destruct (visits _ _); cbn [b2q]; [rewrite <- zq_0, <- zq_1; apply zq_le; lia|apply Qcle_refl]|exact IN]. cbn [fst snd] in *.
      destruct (SpecEnsemble.reaches _ _ rows) eqn:ER; [|reflexivity]. apply reaches_visits in ER. rewrite ER in N0. discriminate. }
    split; auto. split; [rewrite V2, W2; ring|]. split; auto. rewrite V4, W4, X1, X3. f_equal.
    assert (N0 : (0 <= norm_at e r)%Qc) by (rewrite V3; apply sum_nonneg; intros; apply b2q_nonneg). pose proof (zprod_pos _ HT) as PT.
    rewrite (quotient_safe (first_at e r)) by auto. rewrite quotient_safe; [apply safe_scaled; auto|rewrite <- (Qcmult_0_r (zq (zprod times))); rewrite (Qcmult_comm (zq _)), (Qcmult_comm (zq _)); apply Qcmult_le_compat_r; auto; apply Qclt_le_weak; apply zq_pos; auto|].
    intros N. apply Qcmult_integral in N. destruct N as [N|N]; [rewrite <- zq_0 in N; apply zq_inj in N; lia|]. rewrite (Z0 N). ring.
Qed.

(** ** Masks and negative weights *)

Lemma below : forall n p, 0 <= p < Z.of_nat n -> In p (map Z.of_nat (seq 0 n)).
Proof. intros n p H. apply in_map_iff. exists (Z.to_nat p). split; [lia|]. apply in_seq. lia. Qed.

(** All copies of all pixels of a small image, one by one. *)
Definition copied {A} (times shape : list Z) (a b : list A) : Prop :=
  forall p p', In p (map Z.of_nat (seq 0 (Z.to_nat (zprod shape)))) -> In p' (map Z.of_nat (seq 0 (Z.to_nat (zprod (tiled times shape))))) ->
  coords shape p = remain shape (coords (tiled times shape) p') -> nth_error b (Z.to_nat p') = nth_error a (Z.to_nat p).

Lemma carried_small : forall {A} times shape (a b : list A), copied times shape a b -> carried (copy_of times shape) a b.
Proof. intros A times shape a b H p p' (P & P' & E). unfold pixel in *. apply H; auto; apply below; lia. Qed.

Ltac by_cases := apply carried_small; intros p p' IP IP' EQ;
  cbv in IP, IP'; repeat (destruct IP as [<-|IP]); try contradiction; repeat (destruct IP' as [<-|IP']); try contradiction; first [vm_compute in EQ; discriminate EQ | reflexivity].

Lemma tile_masked : exists roi shape f g m m2 f' g' m' m2' e e' r, shapes true roi shape /\
  carried_call (copy_of [2] shape) shape (tiled [2] shape) (CallS2 f g (Some (m, m2))) (CallS2 f' g' (Some (m', m2'))) /\
  fresh true roi true true (CallS2 f g (Some (m, m2))) = Ok e /\ fresh true roi true true (CallS2 f' g' (Some (m', m2'))) = Ok e' /\
  pixel roi r /\ result_at e r = Exact (1 / zq 3)%Qc /\ result_at e' r = Exact (zq 2 / zq 5)%Qc.
Proof.
  exists [3], [3], (mkimg [3] (map zq [1;1;0])), (mkimg [3] (map zq [1;1;0])), (mkimg [3] [0;0;0]), (mkimg [3] [1;0;0]),
    (mkimg [6] (map zq [1;1;0;1;1;0])), (mkimg [6] (map zq [1;1;0;1;1;0])), (mkimg [6] [0;0;0;0;0;0]), (mkimg [6] [1;0;0;1;0;0]).
  eexists _, _, 2. split. { split; [reflexivity|]. split; [cbn; lia|]. split; [repeat constructor; lia|]. split; [repeat constructor; lia|]. intros _. vm_compute. repeat split; discriminate. }
  split.
  { assert (I1 : carried_image (copy_of [2] [3]) [3] (tiled [2] [3]) (mkimg [3] (map zq [1;1;0])) (mkimg [6] (map zq [1;1;0;1;1;0]))).
    { split; [split; reflexivity|]. split; [split; reflexivity|]. by_cases. }
    split; [exact I1|]. split; [exact I1|]. split; (split; [split; [split; reflexivity|intros x IN; cbn in IN; intuition lia]|]; split; [split; [split; reflexivity|intros x IN; cbn in IN; intuition lia]|]; by_cases). }
  split; [vm_compute; reflexivity|]. split; [vm_compute; reflexivity|]. split; [unfold pixel; cbn; lia|].
  split; vm_compute; apply f_equal; apply Qc_is_canon; vm_compute; reflexivity.
Qed.

Lemma tile_negative : exists roi shape w f w' f' e e' r, shapes true roi shape /\
  carried_call (copy_of [2] shape) shape (tiled [2] shape) (CallW2 w f None) (CallW2 w' f' None) /\
  fresh true roi true true (CallW2 w f None) = Ok e /\ fresh true roi true true (CallW2 w' f' None) = Ok e' /\
  pixel roi r /\ result_at e r = Exact (zq (-2)) /\ result_at e' r = Exact (zq (-4)).
Proof.
  exists [3], [3], (mkimg [3] (map zq [-1;-1;0])), (mkimg [3] (map zq [1;1;1])), (mkimg [6] (map zq [-1;-1;0;-1;-1;0])), (mkimg [6] (map zq [1;1;1;1;1;1])).
  eexists _, _, 1. split. { split; [reflexivity|]. split; [cbn; lia|]. split; [repeat constructor; lia|]. split; [repeat constructor; lia|]. intros _. vm_compute. repeat split; discriminate. }
  split. { split; [|split; [|exact I]]; (split; [split; reflexivity|]; split; [split; reflexivity|]; by_cases). }
  split; [vm_compute; reflexivity|]. split; [vm_compute; reflexivity|]. split; [unfold pixel; cbn; lia|].
  split; vm_compute; apply f_equal; apply Qc_is_canon; vm_compute; reflexivity.
Qed.
