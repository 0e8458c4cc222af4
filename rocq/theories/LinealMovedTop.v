(** * LinealMovedTop: L and W2c of images that are rolled, flipped or transposed (proofs only) *)

From Coq Require Import ZArith QArith Qcanon List Bool Lia Permutation.
From Verif Require Import Base BaseLemmas Cluster SpecCluster ClusterGeom ClusterMain SpecDilate SpecPath Path Array3 Array3Lemmas DilateTop Ensemble SpecEnsemble EnsembleSums EnsembleWindow EnsembleAdd EnsembleTop
  EnsembleL EnsembleW2c SpecAlgebra DerivedAlgebra SpecSymmetry DerivedCluster DerivedDilate DerivedEnsemble DerivedLineal SpecMoved SpecPathSym PathSym W2cLaws SpecLinealMoved LinealMoved.
Import ListNotations.
Open Scope Z_scope.

Lemma carried_zeros : forall (T : Z -> Z -> Prop) shape shape', Forall (fun n => 1 <= n) shape -> Forall (fun n => 1 <= n) shape' ->
  (forall p q, T p q -> pixel shape p /\ pixel shape' q) -> carried_mask T shape shape' (zeros shape) (zeros shape').
Proof.
  intros T shape shape' HP HP' HT. split; [apply zeros_mask; auto|]. split; [apply zeros_mask; auto|].
  intros p q Hpq. destruct (HT p q Hpq) as [Hp Hq]. unfold pixel in *. cbn [zeros i_vals].
  rewrite !(nth_error_nth' _ 0) by (rewrite repeat_length; lia). rewrite !nth_repeat. reflexivity.
Qed.

Lemma walk_moved : forall asrt per var roi shape roi' shape' n0 n1 n2 k0 k1 k2 n0' n1' n2' k0' k1' k2' T (D : list Z -> list Z) mode c c',
  shapes per roi shape -> shapes per roi' shape' ->
  dims3 per roi shape n0 n1 n2 k0 k1 k2 -> dims3 per roi' shape' n0' n1' n2' k0' k1' k2' -> matching shape shape' T ->
  (forall x y, length x = 3%nat -> length y = 3%nat -> D x = D y -> x = y) ->
  (forall x, In x (edge [k0; k1; k2]) -> In (D x) (edge [k0'; k1'; k2'])) ->
  (forall y, In y (edge [k0'; k1'; k2']) -> exists x, In x (edge [k0; k1; k2]) /\ D x = y) ->
  (forall x, In x (edge [k0; k1; k2]) -> path_for k0' k1' k2' mode (D x) = map D (path_for k0 k1 k2 mode x)) ->
  (forall d p p' q q', length d = 3%nat -> T p p' -> T q q' ->
    movedb per (three shape) (coords (three shape) p) d (coords (three shape) q) = movedb per (three shape') (coords (three shape') p') (D d) (coords (three shape') q')) ->
  carried_walk T shape shape' c c' -> goes_by mode c -> walks_in roi c -> walks_in roi' c' ->
  exists e e', fresh asrt roi per var c = Ok e /\ fresh asrt roi' per var c' = Ok e' /\ roi_shaped roi e /\ roi_shaped roi' e' /\
    forall r r', pixel roi r -> pixel roi' r' -> offset (three roi') r' = D (offset (three roi) r) -> same_at e r e' r'.
Proof.
  intros asrt per var roi shape roi' shape' n0 n1 n2 k0 k1 k2 n0' n1' n2' k0' k1' k2' T D mode c c' HS HS' HD HD' HT DI DE DS DP HM HC HG HW HW'.
  destruct c, c'; cbn [carried_walk goes_by walks_in] in *; try contradiction.
  - destruct HC as (C1 & C2 & C3 & C4 & ->). destruct HW as [HW HE], HW' as [HW' HE']. subst.
    destruct (W2c_moved asrt per var roi shape roi' shape' n0 n1 n2 k0 k1 k2 n0' n1' n2' k0' k1' k2' T D mode HD HD' HT DI DE DS DP HM HW HW' HE HE' _ _ _ _ _ _ (mask1 f fmask) (mask1 f0 fmask0) C1 C2 C3) as (e & e' & H); [|exists e, e'; exact H].
    destruct fmask, fmask0; cbn [carried_option mask1] in *; try contradiction; auto. destruct C3 as ((-> & _) & (-> & _) & _). apply carried_zeros; try apply HS; try apply HS'. apply HT.
  - destruct HC as (C1 & ->). subst. apply (L_moved asrt per var roi shape roi' shape' n0 n1 n2 k0 k1 k2 n0' n1' n2' k0' k1' k2' T D mode HD HD' HT DI DE DS DP HM HW HW' _ _ C1).
Qed.

Lemma walk_mode : forall roi c, walks_in roi c -> exists mode, goes_by mode c.
Proof. intros roi c H. destruct c; cbn in H; try contradiction; eexists; reflexivity. Qed.
Lemma walk_walkable : forall mode roi c, goes_by mode c -> walks_in roi c -> walkable mode roi.
Proof. intros mode roi c G H. destruct c; cbn in G, H; try contradiction; subst; tauto. Qed.

Lemma carried_walks : forall T shape shape' roi c c', carried_walk T shape shape' c c' -> walks_in roi c -> walks_in roi c'.
Proof. intros T shape shape' roi c c' HC HW. destruct c, c'; cbn in HC, HW |- *; try contradiction; [destruct HC as (_ & _ & _ & _ & ->)|destruct HC as (_ & ->)]; auto. Qed.

Lemma pixel_three : forall shape p, (length shape <= 3)%nat -> pixel shape p -> pixel (three shape) p.
Proof. intros [|a [|b [|c [|d s]]]] p HL Hp; unfold pixel in *; cbn [three zprod] in *; auto; cbn in HL; lia. Qed.
Lemma pos_three : forall shape, (length shape <= 3)%nat -> Forall (fun n => 1 <= n) shape -> Forall (fun n => 0 < n) (three shape).
Proof.
  intros [|a [|b [|c [|d s]]]] HL HP; cbn [three]; repeat match goal with HF : Forall _ (_ :: _) |- _ => inversion HF; clear HF; subst end; repeat constructor; cbn in HL; try lia; auto using image_pos.
Qed.

(** ** Rolled *)

Lemma roll_walk : forall asrt var roi shape d c c', shapes true roi shape -> length d = length shape ->
  carried_walk (rolls d shape) shape shape c c' -> walks_in roi c ->
  same_data (fresh asrt roi true var c) (fresh asrt roi true var c').
Proof.
  intros asrt var roi shape d c c' HS Hd HC HW. destruct (shapes_dims3 _ _ _ HS) as (n0 & n1 & n2 & k0 & k1 & k2 & HD).
  assert (HP : Forall (fun n => 0 < n) shape) by (apply image_pos; apply HS). destruct HS as (HL & H3 & HK & HN & HF) eqn:HS'. clear HS'.
  destruct (walk_mode _ _ HW) as (mode & HG).
  destruct (walk_moved asrt true var roi shape roi shape _ _ _ _ _ _ _ _ _ _ _ _ (rolls d shape) (fun x => x) mode c c' HS HS HD HD) as (e & e' & E & E' & S1 & S2 & V); eauto using carried_walks.
  - apply rolls_matching; auto.
  - intros x _. rewrite map_id. reflexivity.
  - intros x p p' q q' _ (Pp & Pp' & Mp) (Pq & Pq' & Mq). apply moved_lift in Mp; auto. apply moved_lift in Mq; auto.
    rewrite <- !coords_three in Mp, Mq by auto.
    assert (HI : forall p, pixel shape p -> inside (three shape) (coords (three shape) p)) by (intros; apply coords_inside; auto using pos_three, pixel_three).
    apply bool_iff. rewrite !movedb_iff. split; intros M.
    + eapply moved_commute; eauto.
    + apply moved_sym in Mp; auto. apply moved_sym in Mq; auto. eapply moved_commute; eauto.
  - exists e, e'. split; auto. split; auto. destruct S1 as (L1 & L2 & L3 & L4), S2 as (L1' & L2' & L3' & L4').
    assert (W : forall r, 0 <= r < zprod roi -> same_at e r e' r) by (intros r Hr; apply V; auto).
    repeat split.
    + apply list_ext_qn; [unfold lenZ in *; lia|]. intros r Hr. symmetry. apply (W r). lia.
    + apply list_ext_qn; [unfold lenZ in *; lia|]. intros r Hr. symmetry. apply (W r). lia.
    + apply list_ext_qn; [unfold lenZ in *; lia|]. intros r Hr. symmetry. apply (W r). lia.
    + apply (nth_ext _ _ NaN NaN); [unfold lenZ in *; lia|]. intros n Hn. symmetry.
      destruct (W (Z.of_nat n)) as (_ & _ & _ & X); [unfold lenZ in *; lia|]. unfold result_at in X. rewrite Nat2Z.id in X. exact X.
Qed.

(** ** Paths from the origin *)

Lemma path_zero : forall k0 k1 k2 mode rows, good_path k0 k1 k2 mode [0; 0; 0] rows -> rows = [[0; 0; 0]].
Proof.
  intros k0 k1 k2 mode rows (_ & H1 & _ & H3). destruct rows as [|x rows]; [discriminate|]. injection H1 as ->. destruct rows as [|y rows]; [reflexivity|].
  destruct H3 as [[H4 H5] _]. exfalso. destruct y as [|a [|b [|c [|d y]]]]; cbn in H4; try tauto. apply H5. f_equal; [lia|]. f_equal; [lia|]. f_equal. lia.
Qed.

(** Any change of the axes that changes the paths the same way. *)
Lemma path_for_changed : forall per roi shape n0 n1 n2 k0 k1 k2 n0' n1' n2' k0' k1' k2' roi' shape' mode (D : list Z -> list Z) x,
  dims3 per roi shape n0 n1 n2 k0 k1 k2 -> walkable mode roi ->
  dims3 per roi' shape' n0' n1' n2' k0' k1' k2' -> walkable mode roi' -> k0' + k1' + k2' = k0 + k1 + k2 ->
  In x (edge [k0; k1; k2]) -> In (D x) (edge [k0'; k1'; k2']) -> D [0; 0; 0] = [0; 0; 0] ->
  (x <> [0; 0; 0] -> span [0; 0; 0] x < 2 ^ 30 -> (Z.to_nat (span [0; 0; 0]%Z x) < the_fuel k0 k1 k2)%nat ->
     path (the_fuel k0 k1 k2) [0; 0; 0] (D x) mode = each D (path (the_fuel k0 k1 k2) [0; 0; 0] x mode)) ->
  path_for k0' k1' k2' mode (D x) = map D (path_for k0 k1 k2 mode x).
Proof.
  intros per roi shape n0 n1 n2 k0 k1 k2 n0' n1' n2' k0' k1' k2' roi' shape' mode D x HD HW HD' HW' HK IN IN' D0 H.
  pose proof (paths_exist _ _ _ _ _ _ _ _ _ mode HD HW x IN) as G. pose proof (paths_exist _ _ _ _ _ _ _ _ _ mode HD' HW' (D x) IN') as G'.
  destruct (list_eq_dec Z.eq_dec x [0; 0; 0]) as [->|NE].
  - rewrite D0 in G' |- *. rewrite (path_zero _ _ _ _ _ G), (path_zero _ _ _ _ _ G'). cbn [map]. rewrite D0. reflexivity.
  - unfold path_for. replace (the_fuel k0' k1' k2') with (the_fuel k0 k1 k2) by (unfold the_fuel; f_equal; lia).
    destruct (edge_three _ _ _ x IN) as (a & b & c & ->). apply (edge_iff _ _ _ _ _ _ _ _ _ HD) in IN. destruct IN as [(Wa & Wb & Wc) _]. unfold within in *.
    pose proof (D_pk _ _ _ _ _ _ _ _ _ HD) as (K0 & K1 & K2). apply (walkable3 _ k0 k1 k2) in HW; [|apply HD].
    assert (B : k0 <= 2 ^ 30 /\ k1 <= 2 ^ 30 /\ k2 <= 2 ^ 30).
    { destruct mode; cbn [walkable] in HW; repeat match goal with HF : Forall _ (_ :: _) |- _ => inversion HF; clear HF; subst end; lia. }
    rewrite H; auto.
    + destruct (path _ _ [a; b; c] mode); reflexivity.
    + cbn [span]. Z.to_euclidean_division_equations; lia.
    + unfold the_fuel. cbn [span]. Z.to_euclidean_division_equations; lia.
Qed.

(** ** Flipped *)

Definition lift_which (which : list bool) : list bool :=
  match which with [] => [false; false; false] | [a] => [false; a; false] | [a; b] => [a; b; false] | _ => which end.

Definition sign (w : bool) : Z := if w then -1 else 1.

Lemma flipped_mirror : forall which x, length which = length x -> flipped_offset which x = mirror (map sign which) x.
Proof.
  unfold mirror. induction which as [|w which IH]; intros [|t x] HL; try discriminate; [reflexivity|]. cbn [flipped_offset map combine fst snd]. rewrite IH by (cbn in HL; lia). f_equal. destruct w; cbn [sign]; lia.
Qed.

Lemma flipped_lift : forall which shape a b, (length shape <= 3)%nat -> flipped which shape a b -> flipped (lift_which which) (three shape) (lift a) (lift b).
Proof.
  intros which shape a b HL H. destruct which as [|w0 [|w1 [|w2 [|w3 w]]]], shape as [|x [|y [|z [|u s]]]]; cbn in HL; try lia;
    destruct a as [|a0 [|a1 [|a2 [|a3 a]]]]; cbn [flipped] in H; try tauto; destruct b as [|b0 [|b1 [|b2 [|b3 b]]]]; cbn [flipped] in H; try tauto; cbn [three lift lift_which flipped]; intuition lia.
Qed.

Lemma flipped_offset_lift : forall which x, length which = length x -> (length x <= 3)%nat -> lift (flipped_offset which x) = flipped_offset (lift_which which) (lift x).
Proof.
  intros which x HL H3. destruct which as [|w0 [|w1 [|w2 [|w3 w]]]], x as [|x0 [|x1 [|x2 [|x3 x]]]]; cbn in HL, H3; try lia; reflexivity.
Qed.

Lemma odd_half : forall k, Z.odd k = true -> (k - 1) / 2 = k / 2.
Proof. intros k H. rewrite (Z.odd_spec k) in H. destruct H as [m ->]. Z.to_euclidean_division_equations; lia. Qed.

Lemma flip_ends : forall (w : bool) k a, (w = true -> Z.odd k = true) -> within k a -> within k (if w then - a else a).
Proof. intros [] k a H HW; auto. unfold within in *. rewrite (odd_half k) in * by auto. lia. Qed.
Lemma flip_ends' : forall (w : bool) k a, (w = true -> Z.odd k = true) -> ends k a -> ends k (if w then - a else a).
Proof. intros [] k a H HW; auto. unfold ends in *. rewrite (odd_half k) in * by auto. lia. Qed.

Lemma which_three : forall which roi, length which = length roi -> (length roi <= 3)%nat -> odd_along which roi ->
  exists w0 w1 w2, lift_which which = [w0; w1; w2] /\ forall k0 k1 k2, shape3 roi = Ok (k0, k1, k2) -> (w0 = true -> Z.odd k0 = true) /\ (w1 = true -> Z.odd k1 = true) /\ (w2 = true -> Z.odd k2 = true).
Proof.
  intros which roi HL H3 HO. destruct which as [|w0 [|w1 [|w2 [|w3 w]]]], roi as [|x0 [|x1 [|x2 [|x3 x]]]]; cbn in HL, H3; try lia; cbn [lift_which odd_along] in *;
    do 3 eexists; (split; [reflexivity|]); intros k0 k1 k2 E; cbn in E; injection E as <- <- <-; intuition (discriminate || auto).
Qed.

Lemma flip_walk : forall asrt per var roi shape which c c', shapes per roi shape -> length which = length shape -> odd_along which roi ->
  carried_walk (flips which shape) shape shape c c' -> walks_in roi c ->
  exists e e', fresh asrt roi per var c = Ok e /\ fresh asrt roi per var c' = Ok e' /\ roi_shaped roi e /\ roi_shaped roi e' /\
    forall r r', pixel roi r -> pixel roi r' -> offset roi r' = flipped_offset which (offset roi r) -> same_at e r e' r'.
Proof.
  intros asrt per var roi shape which c c' HS Hd HO HC HW. destruct (shapes_dims3 _ _ _ HS) as (n0 & n1 & n2 & k0 & k1 & k2 & HD).
  assert (HP : Forall (fun n => 0 < n) shape) by (apply image_pos; apply HS). destruct HS as (HL & H3 & HK & HN & HF) eqn:HS'. clear HS'.
  destruct (walk_mode _ _ HW) as (mode & HG).
  destruct (which_three which roi) as (w0 & w1 & w2 & EW & OW); auto; try lia. specialize (OW k0 k1 k2 (D_k _ _ _ _ _ _ _ _ _ HD)). destruct OW as (O0 & O1 & O2).
  set (D := flipped_offset [w0; w1; w2]).
  assert (DE : forall x, In x (edge [k0; k1; k2]) -> In (D x) (edge [k0; k1; k2])).
  { intros x IN. destruct (edge_three _ _ _ x IN) as (a & b & c0 & ->). unfold D. cbn [flipped_offset]. apply (edge_iff _ _ _ _ _ _ _ _ _ HD) in IN. apply (edge_iff _ _ _ _ _ _ _ _ _ HD).
    destruct IN as [(Wa & Wb & Wc) EN]. split; [split; [|split]; apply flip_ends; auto|]. destruct EN as [EN|[EN|EN]]; [left|right; left|right; right]; apply flip_ends'; auto. }
  destruct (walk_moved asrt per var roi shape roi shape _ _ _ _ _ _ _ _ _ _ _ _ (flips which shape) D mode c c' HS HS HD HD) as (e & e' & E & E' & S1 & S2 & V); eauto using carried_walks.
  - apply flips_matching; auto.
  - intros x y _ _ E. apply (f_equal D) in E. unfold D in E. rewrite !flipped_offset_twice in E. exact E.
  - intros y IN. exists (D y). split; auto. apply flipped_offset_twice.
  - intros x IN. assert (WK : walkable mode roi) by (eapply walk_walkable; eauto).
    apply (path_for_changed per roi shape n0 n1 n2 k0 k1 k2 n0 n1 n2 k0 k1 k2 roi shape mode D x); auto.
    + unfold D. cbn [flipped_offset]. destruct w0, w1, w2; reflexivity.
    + intros NE SP FU. pose proof (edge_length [k0; k1; k2] x eq_refl IN) as LX.
      pose proof (path_mirror (the_fuel k0 k1 k2) (map sign [w0; w1; w2]) [0; 0; 0] x mode) as PM.
      assert (EQ : forall y, length y = 3%nat -> D y = mirror (map sign [w0; w1; w2]) y) by (intros; apply flipped_mirror; cbn; auto).
      rewrite <- !EQ in PM by (auto; reflexivity). replace (D [0; 0; 0]) with ([0; 0; 0]) in PM by (unfold D; cbn [flipped_offset]; destruct w0, w1, w2; reflexivity).
      rewrite PM; auto; [|cbn; lia|repeat (apply Forall_cons; [match goal with |- sign ?w = _ \/ _ => destruct w; cbn; auto end|]); apply Forall_nil].
      pose proof (paths_exist _ _ _ _ _ _ _ _ _ mode HD WK x IN) as (EP & H1 & _ & H4). rewrite EP. cbn [each]. f_equal. apply map_ext_in. intros y IY. symmetry. apply EQ.
      rewrite <- LX. destruct (path_for k0 k1 k2 mode x) as [|z rows]; [destruct IY|]. injection H1 as ->. eapply rows_length; eauto.
  - intros x p p' q q' LX (Pp & Pp' & Mp) (Pq & Pq' & Mq). apply flipped_lift in Mp; auto. apply flipped_lift in Mq; auto.
    rewrite <- !coords_three, EW in Mp, Mq by auto.
    assert (HI : forall p, pixel shape p -> inside (three shape) (coords (three shape) p)) by (intros; apply coords_inside; auto using pos_three, pixel_three).
    assert (L3 : length (three shape) = 3%nat) by (rewrite (three_eq shape n0 n1 n2) by apply HD; reflexivity).
    apply bool_iff. rewrite !movedb_iff. split; intros M.
    + eapply flipped_moved; [| |exact Mp|exact Mq|lia|exact M]; auto.
    + rewrite <- (flipped_offset_twice [w0; w1; w2] x). apply flipped_sym in Mp. apply flipped_sym in Mq.
      eapply flipped_moved; [| |exact Mp|exact Mq|rewrite flipped_offset_length; lia|exact M]; auto.
  - exists e, e'. repeat (split; auto; []). intros r r' Hr Hr' HX. apply V; auto.
    assert (HKp : Forall (fun n => 1 <= n) roi) by (eapply Forall_impl; [|exact HK]; cbn; intros; lia).
    assert (LO : length (offset roi r) = length roi) by (unfold offset, diff; rewrite map_length, combine_length, coords_length, anchor_length; lia).
    rewrite !offset_three, HX by (auto; lia). unfold D. rewrite <- EW. apply flipped_offset_lift; lia.
Qed.

(** ** Transposed *)

Definition swap3 (shape : list Z) : list nat := match length shape with 2%nat => [1%nat; 0%nat; 2%nat] | 3%nat => [2%nat; 1%nat; 0%nat] | _ => [0%nat; 1%nat; 2%nat] end.

Lemma swap3_perm : forall shape, Permutation (swap3 shape) (seq 0 3).
Proof.
  intros shape. unfold swap3. destruct (length shape) as [|[|[|[|]]]]; cbn [seq]; try apply Permutation_refl; [apply perm_swap|].
  apply (Permutation_rev [2%nat; 1%nat; 0%nat]).
Qed.

Lemma pick_lift : forall (shape x : list Z), length x = length shape -> (length shape <= 3)%nat -> lift (rev x) = pick (swap3 shape) (lift x).
Proof.
  intros shape x HL H3. unfold swap3. rewrite <- HL in *. destruct x as [|x0 [|x1 [|x2 [|x3 x]]]]; cbn in H3; try lia; reflexivity.
Qed.

Lemma three_rev : forall (s shape : list Z), length s = length shape -> (length shape <= 3)%nat -> three (rev s) = pick (swap3 shape) (three s).
Proof. intros s shape HL H3. unfold swap3. rewrite <- HL in *. destruct s as [|x0 [|x1 [|x2 [|x3 x]]]]; cbn in H3; try lia; reflexivity. Qed.

Lemma swap3_cases : forall shape, (length shape <= 3)%nat -> swap3 shape = [0%nat; 1%nat; 2%nat] \/ swap3 shape = [1%nat; 0%nat; 2%nat] \/ swap3 shape = [2%nat; 1%nat; 0%nat].
Proof. intros shape. unfold swap3. destruct (length shape) as [|[|[|[|]]]]; auto. Qed.

Lemma pick_twice : forall shape x, (length shape <= 3)%nat -> length x = 3%nat -> pick (swap3 shape) (pick (swap3 shape) x) = x.
Proof.
  intros shape x H3 HL. destruct x as [|a [|b [|c [|d x]]]]; try discriminate. destruct (swap3_cases shape H3) as [-> |[-> | ->]]; reflexivity.
Qed.

Lemma moved_pick : forall per shape s a d b, (length shape <= 3)%nat -> length s = 3%nat -> length d = 3%nat -> moved per s a d b ->
  moved per (pick (swap3 shape) s) (pick (swap3 shape) a) (pick (swap3 shape) d) (pick (swap3 shape) b).
Proof.
  intros per shape s a d b H3 Ls Ld M. destruct s as [|s0 [|s1 [|s2 [|s3 s]]]], d as [|d0 [|d1 [|d2 [|d3 d]]]]; try discriminate.
  destruct a as [|a0 [|a1 [|a2 [|a3 a]]]]; cbn [moved] in M; try tauto; destruct b as [|b0 [|b1 [|b2 [|b3 b]]]]; cbn [moved] in M; try tauto.
  destruct (swap3_cases shape H3) as [-> |[-> | ->]]; unfold pick; cbn [map nth moved]; destruct M as (M0 & M1 & M2 & _); auto.
Qed.

Lemma transpose_walk : forall asrt per var roi shape c c', shapes per roi shape ->
  carried_walk (transposes shape) shape (rev shape) c c' -> walks_in roi c -> walks_in (rev roi) c -> ~ goes_by full c ->
  exists e e', fresh asrt roi per var c = Ok e /\ fresh asrt (rev roi) per var c' = Ok e' /\ roi_shaped roi e /\ roi_shaped (rev roi) e' /\
    forall r r', pixel roi r -> pixel (rev roi) r' -> offset (rev roi) r' = rev (offset roi r) -> same_at e r e' r'.
Proof.
  intros asrt per var roi shape c c' HS HC HW HW' HB. pose proof (shapes_rev _ _ _ HS) as HSr.
  destruct (shapes_dims3 _ _ _ HS) as (n0 & n1 & n2 & k0 & k1 & k2 & HD). destruct (shapes_dims3 _ _ _ HSr) as (n0' & n1' & n2' & k0' & k1' & k2' & HD').
  assert (HP : Forall (fun n => 0 < n) shape) by (apply image_pos; apply HS). destruct HS as (HL & H3 & HK & HN & HF) eqn:HS'. clear HS'.
  destruct (walk_mode _ _ HW) as (mode & HG).
  set (D := pick (swap3 shape)).
  assert (RK : three (rev roi) = D (three roi)) by (apply three_rev; auto).
  assert (RN : three (rev shape) = D (three shape)) by (apply three_rev; auto).
  rewrite (three_eq roi k0 k1 k2), (three_eq (rev roi) k0' k1' k2') in RK by (apply HD || apply HD').
  assert (DE : forall a b d, In [a; b; d] (edge [k0; k1; k2]) <-> In (D [a; b; d]) (edge [k0'; k1'; k2'])).
  { intros a b d. unfold D in *. destruct (swap3_cases shape H3) as [ES|[ES|ES]]; rewrite ES in *; cbn [pick map nth] in *; injection RK as <- <- <-;
      rewrite ?(edge_iff _ _ _ _ _ _ _ _ _ HD), ?(edge_iff _ _ _ _ _ _ _ _ _ HD'); tauto. }
  assert (KS : k0' + k1' + k2' = k0 + k1 + k2).
  { unfold D in RK. destruct (swap3_cases shape H3) as [ES|[ES|ES]]; rewrite ES in RK; cbn [pick map nth] in RK; injection RK as <- <- <-; lia. }
  assert (D0 : D [0; 0; 0] = [0; 0; 0]) by (unfold D; destruct (swap3_cases shape H3) as [-> |[-> | ->]]; reflexivity).
  assert (DL : forall x, length (D x) = 3%nat) by (intros; unfold D, pick; rewrite map_length; destruct (swap3_cases shape H3) as [-> |[-> | ->]]; reflexivity).
  destruct (walk_moved asrt per var roi shape (rev roi) (rev shape) _ _ _ _ _ _ _ _ _ _ _ _ (transposes shape) D mode c c' HS HSr HD HD') as (e & e' & E & E' & S1 & S2 & V); eauto using carried_walks.
  - apply transposes_matching; auto.
  - intros x y Lx Ly E. apply (f_equal D) in E. unfold D in E. rewrite !pick_twice in E by auto. exact E.
  - intros x IN. destruct (edge_three _ _ _ x IN) as (a & b & d & ->). apply DE. exact IN.
  - intros y IN. assert (P2 : D (D y) = y) by (apply (pick_twice shape y H3); apply (edge_length [k0'; k1'; k2'] y eq_refl IN)). pose proof (DL y) as X.
    exists (D y). split; auto. rewrite <- P2 in IN. destruct (D y) as [|a [|b [|d [|? ?]]]]; try discriminate. apply DE. exact IN.
  - intros x IN. apply (path_for_changed per roi shape n0 n1 n2 k0 k1 k2 n0' n1' n2' k0' k1' k2' (rev roi) (rev shape) mode D x); auto.
    + eapply walk_walkable; eauto.
    + eapply walk_walkable; eauto.
    + destruct (edge_three _ _ _ x IN) as (a & b & d & ->). apply DE. exact IN.
    + intros NE SP FU. pose proof (edge_length [k0; k1; k2] x eq_refl IN) as LX.
      rewrite <- D0 at 1. apply path_axes; auto; [|cbn; lia|apply swap3_perm].
      destruct mode; auto. contradiction.
  - intros x p p' q q' LX (Pp & Pp' & Mp) (Pq & Pq' & Mq).
    assert (CP : forall p p', pixel shape p -> pixel (rev shape) p' -> coords (rev shape) p' = rev (coords shape p) -> coords (three (rev shape)) p' = D (coords (three shape) p)).
    { intros z z' Hz Hz' EZ. rewrite !coords_three, EZ by (rewrite ?rev_length; auto using Forall_rev). apply pick_lift; auto. apply coords_length. }
    rewrite (CP p p'), (CP q q') by auto. rewrite RN.
    assert (L3 : forall s, length s = 3%nat -> length (coords s p) = 3%nat /\ length (coords s q) = 3%nat) by (intros; rewrite !coords_length; auto).
    assert (LS : length (three shape) = 3%nat) by (rewrite (three_eq shape n0 n1 n2) by apply HD; reflexivity).
    apply bool_iff. rewrite !movedb_iff. split; intros M; [apply moved_pick; auto|].
    apply (moved_pick per shape) in M; auto. unfold D in M. rewrite !pick_twice in M; auto; apply L3; auto.
  - exists e, e'. repeat (split; auto; []). intros r r' Hr Hr' HX. apply V; auto.
    assert (HKp : Forall (fun n => 1 <= n) roi) by (eapply Forall_impl; [|exact HK]; cbn; intros; lia).
    assert (LO : length (offset roi r) = length roi) by (unfold offset, diff; rewrite map_length, combine_length, coords_length, anchor_length; lia).
    rewrite !offset_three, HX by (rewrite ?rev_length; auto using Forall_rev; lia). apply pick_lift; lia.
Qed.
