(** * LabellerMovedTop: a moved labeller, for the constructors and the moves of the user *)

From Coq Require Import ZArith List Bool Lia Permutation.
From Verif Require Import Base BaseLemmas Cluster SpecCluster ClusterGeom ClusterMain ClusterTop KernelProofs SpecSymmetry DerivedCluster
  Dilate SpecDilate DerivedDilate SpecDilateLaws DilateLaws SpecAxes AxesLaws SpecLabellerMoved LabellerMoved.
Import ListNotations.
Open Scope Z_scope.

(** ** A history with the pixels moved *)

Lemma default_moved : forall asrt shape shape' per T ops ops', good_shape shape -> good_shape shape' ->
  (length shape <= 3)%nat -> (length shape' <= 3)%nat -> zprod shape' = zprod shape -> one_to_one shape shape' T ->
  keeps_adjacent T (face_neighbour per shape) (face_neighbour per shape') ->
  Forall (legal shape) ops -> Forall2 (carried_op T) ops ops' ->
  exists g g' s s' outs, make_default shape per = Ok g /\ make_default shape' per = Ok g' /\
    run asrt g ops = Ok (s, outs) /\ run asrt g' ops' = Ok (s', outs) /\ carried T (c_label s) (c_label s').
Proof.
  intros asrt shape shape' per T ops ops' HS HS' HL HL' HN HT HA Hops HC.
  destruct (make_default_ok shape per HS HL) as (g & E & W & Es & Ep & _ & Hin & Hnb).
  destruct (make_default_ok shape' per HS' HL') as (g' & E' & W' & Es' & Ep' & _ & Hin' & Hnb').
  destruct (run_moved g g' T (zprod shape) W W') with (asrt := asrt) (ops := ops) (ops' := ops') as (_ & s & s' & outs & R & R' & K & _);
    rewrite ?Es, ?Es'; auto.
  - rewrite <- HN. exact Hin'.
  - intros p q p' q' Hp Hq Hne. rewrite <- Es, Hnb. rewrite <- Es', Hnb'. auto.
  - exists g, g', s, s', outs. auto.
Qed.

Lemma kernel_moved : forall asrt shape shape' per ks ks' kv kv' T ops ops', good_shape shape -> good_shape shape' ->
  good_kernel shape ks kv -> good_kernel shape' ks' kv' ->
  offsets_in_range per shape (set_offset ks kv) -> offsets_in_range per shape' (set_offset ks' kv') ->
  zprod shape' = zprod shape -> one_to_one shape shape' T ->
  keeps_adjacent T (kernel_neighbour per shape ks kv) (kernel_neighbour per shape' ks' kv') ->
  Forall (legal shape) ops -> Forall2 (carried_op T) ops ops' ->
  exists g g' s s' outs, make_kernel asrt shape per ks kv = Ok g /\ make_kernel asrt shape' per ks' kv' = Ok g' /\
    run asrt g ops = Ok (s, outs) /\ run asrt g' ops' = Ok (s', outs) /\ carried T (c_label s) (c_label s').
Proof.
  intros asrt shape shape' per ks ks' kv kv' T ops ops' HS HS' HK HK' HR HR' HN HT HA Hops HC.
  destruct (make_kernel_ok asrt shape per ks kv HS HK) as (g & E & W & Es & Ep & HD).
  destruct (make_kernel_ok asrt shape' per ks' kv' HS' HK') as (g' & E' & W' & Es' & Ep' & HD').
  pose proof (kernel_in_range shape per ks kv g Es Ep (proj1 HK) HD HR) as I.
  pose proof (kernel_in_range shape' per ks' kv' g' Es' Ep' (proj1 HK') HD' HR') as I'.
  pose proof (kernel_neighbour_dx shape per ks kv g HS Es Ep HD) as Hnb.
  pose proof (kernel_neighbour_dx shape' per ks' kv' g' HS' Es' Ep' HD') as Hnb'.
  destruct (run_moved g g' T (zprod shape) W W') with (asrt := asrt) (ops := ops) (ops' := ops') as (_ & s & s' & outs & R & R' & K & _);
    rewrite ?Es, ?Es'; auto.
  - intros p q p' q' Hp Hq Hne. destruct HT as (_ & _ & _ & _ & T5).
    assert (Hne' : p' <> q') by (intros ->; apply Hne; eauto).
    rewrite <- Es, (Hnb p q Hne). rewrite <- Es', (Hnb' p' q' Hne'). auto.
  - exists g, g', s, s', outs. auto.
Qed.

(** ** Any two histories that add the same pixels *)

Lemma linked_moved : forall (adj adj' : Z -> Z -> Prop) shape shape' (A A' : Z -> Prop) T, one_to_one shape shape' T -> keeps_adjacent T adj adj' ->
  (forall x x', T x x' -> (A x <-> A' x')) ->
  forall p q p' q', T p p' -> T q q' ->
  (linked adj (fun x => pixel shape x /\ A x) p q <-> linked adj' (fun x => pixel shape' x /\ A' x) p' q').
Proof.
  intros adj adj' shape shape' A A' T (T1 & T2 & T3 & T4 & T5) HK HA.
  (* a step from a pixel to itself may be left out *)
  assert (F : forall p q, linked adj (fun x => pixel shape x /\ A x) p q -> forall p' q', T p p' -> T q q' ->
    linked adj' (fun x => pixel shape' x /\ A' x) p' q').
  { induction 1 as [p [Pp Ap]|p q r [Pp Ap] Hpq HL IH]; intros p' r' Hp Hr.
    - rewrite (T4 _ _ _ Hp Hr). apply linked_refl. split; [apply (T1 _ _ Hr)|]. apply (HA _ _ Hr); auto.
    - destruct (Z.eq_dec p q) as [-> | Hne]; [apply IH; auto|].
      assert (Pq : pixel shape q) by (destruct HL; tauto). destruct (T2 q Pq) as (q' & Hq).
      apply linked_step with q'; [|apply (HK p q p' q' Hp Hq Hne); auto|apply IH; auto].
      split; [apply (T1 _ _ Hp)|]. apply (HA _ _ Hp); auto. }
  assert (B : forall p' q', linked adj' (fun x => pixel shape' x /\ A' x) p' q' -> forall p q, T p p' -> T q q' ->
    linked adj (fun x => pixel shape x /\ A x) p q).
  { induction 1 as [p' [Pp Ap]|p' q' r' [Pp Ap] Hpq HL IH]; intros p r Hp Hr.
    - rewrite (T5 _ _ _ Hp Hr). apply linked_refl. split; [apply (T1 _ _ Hr)|]. apply (HA _ _ Hr); auto.
    - destruct (Z.eq_dec p' q') as [-> | Hne]; [apply IH; auto|].
      assert (Pq : pixel shape' q') by (destruct HL; tauto). destruct (T3 q' Pq) as (q & Hq).
      assert (Hne' : p <> q) by (intros ->; apply Hne; eauto).
      apply linked_step with q; [|apply (HK p q p' q' Hp Hq Hne'); auto|apply IH; auto].
      split; [apply (T1 _ _ Hp)|]. apply (HA _ _ Hp); auto. }
  intros p q p' q' Hp Hq. split; eauto.
Qed.

Lemma default_same_clusters : forall asrt shape shape' per T ops ops', good_shape shape -> good_shape shape' ->
  (length shape <= 3)%nat -> (length shape' <= 3)%nat -> one_to_one shape shape' T ->
  keeps_adjacent T (face_neighbour per shape) (face_neighbour per shape') ->
  Forall (legal shape) ops -> Forall (legal shape') ops' -> (forall p p', T p p' -> (added ops p <-> added ops' p')) ->
  exists g g' s s' outs outs', make_default shape per = Ok g /\ make_default shape' per = Ok g' /\
    run asrt g ops = Ok (s, outs) /\ run asrt g' ops' = Ok (s', outs') /\
    forall p q p' q', T p p' -> T q q' -> added ops p -> added ops q ->
      (zn (c_label s) p = zn (c_label s) q <-> zn (c_label s') p' = zn (c_label s') q').
Proof.
  intros asrt shape shape' per T ops ops' HS HS' HL HL' HT HA Ho Ho' Hadd.
  destruct (run_partition_default asrt shape per ops HS HL Ho) as (g & s & outs & E & R & P).
  destruct (run_partition_default asrt shape' per ops' HS' HL' Ho') as (g' & s' & outs' & E' & R' & P').
  exists g, g', s, s', outs, outs'. split; auto. split; auto. split; auto. split; auto.
  intros p q p' q' Hp Hq Ap Aq. destruct (proj1 HT _ _ Hp), (proj1 HT _ _ Hq).
  rewrite (P p q), (P' p' q'); auto; try (apply (Hadd _ _ Hp); assumption); try (apply (Hadd _ _ Hq); assumption).
  apply (linked_moved _ _ _ _ _ _ T HT HA Hadd); auto.
Qed.

Lemma kernel_same_clusters : forall asrt shape shape' per ks ks' kv kv' T ops ops', good_shape shape -> good_shape shape' ->
  good_kernel shape ks kv -> good_kernel shape' ks' kv' -> kernel_symmetric ks kv -> kernel_symmetric ks' kv' ->
  offsets_in_range per shape (set_offset ks kv) -> offsets_in_range per shape' (set_offset ks' kv') -> one_to_one shape shape' T ->
  keeps_adjacent T (kernel_neighbour per shape ks kv) (kernel_neighbour per shape' ks' kv') ->
  Forall (legal shape) ops -> Forall (legal shape') ops' -> (forall p p', T p p' -> (added ops p <-> added ops' p')) ->
  exists g g' s s' outs outs', make_kernel asrt shape per ks kv = Ok g /\ make_kernel asrt shape' per ks' kv' = Ok g' /\
    run asrt g ops = Ok (s, outs) /\ run asrt g' ops' = Ok (s', outs') /\
    forall p q p' q', T p p' -> T q q' -> added ops p -> added ops q ->
      (zn (c_label s) p = zn (c_label s) q <-> zn (c_label s') p' = zn (c_label s') q').
Proof.
  intros asrt shape shape' per ks ks' kv kv' T ops ops' HS HS' HK HK' HY HY' HR HR' HT HA Ho Ho' Hadd.
  destruct (run_partition_kernel asrt shape per ks kv ops HS HK HY HR Ho) as (g & s & outs & E & R & P).
  destruct (run_partition_kernel asrt shape' per ks' kv' ops' HS' HK' HY' HR' Ho') as (g' & s' & outs' & E' & R' & P').
  exists g, g', s, s', outs, outs'. split; auto. split; auto. split; auto. split; auto.
  intros p q p' q' Hp Hq Ap Aq. destruct (proj1 HT _ _ Hp), (proj1 HT _ _ Hq).
  rewrite (P p q), (P' p' q'); auto; try (apply (Hadd _ _ Hp); assumption); try (apply (Hadd _ _ Hq); assumption).
  apply (linked_moved _ _ _ _ _ _ T HT HA Hadd); auto.
Qed.

(** ** The moves *)

Lemma rolled_is_a_move : forall d shape, good_shape shape -> length d = length shape ->
  one_to_one shape shape (rolls d shape) /\ keeps_adjacent (rolls d shape) (face_neighbour true shape) (face_neighbour true shape) /\
  forall ks kv, keeps_adjacent (rolls d shape) (kernel_neighbour true shape ks kv) (kernel_neighbour true shape ks kv).
Proof.
  intros d shape HS Hd. pose proof (fun p => good_pos shape p HS) as HP. split; [apply rolls_matching; auto|]. split.
  - intros x y x' y' (A0 & A1 & A2) (B0 & B1 & B2) _. pose proof (HP _ A0). unfold face_neighbour.
    assert (F : face true shape (coords shape x) (coords shape y) <-> face true shape (coords shape x') (coords shape y')).
    { split; intros F; [eapply face_moved; eauto|].
      apply moved_sym in A2; auto using coords_inside. apply moved_sym in B2; auto using coords_inside. eapply face_moved; eauto. }
    tauto.
  - intros ks kv x y x' y' (A0 & A1 & A2) (B0 & B1 & B2) _. pose proof (HP _ A0). split; intros (C1 & C2 & e & C3 & C4).
    + split; auto. split; auto. exists e. split; auto. eapply moved_commute; eauto.
    + split; auto. split; auto. exists e. split; auto.
      apply moved_sym in A2; auto using coords_inside. apply moved_sym in B2; auto using coords_inside. eapply moved_commute; eauto.
Qed.

Lemma centre_flipped : forall which ks, Forall (fun n => n mod 2 = 1) ks -> length which = length ks -> flipped which ks (centre ks) (centre ks).
Proof.
  unfold centre. induction which as [|w which IH]; intros [|n ks] H L; cbn [map flipped length] in *; try lia; auto.
  inversion H; subst. split; [|apply IH; auto]. destruct w; [|reflexivity]. pose proof (Z.div_mod n 2). lia.
Qed.

Lemma centre_inside : forall ks, Forall (fun n => 0 < n) ks -> inside ks (centre ks).
Proof.
  intros ks H. unfold centre. induction H as [|n ks Hn H IH]; cbn [map inside]; [exact I|]. split; [|exact IH].
  split; [apply Z.div_pos; lia|]. apply Z.div_lt_upper_bound; lia.
Qed.

Lemma good_kernel_odd : forall shape ks kv, good_kernel shape ks kv -> Forall (fun n => n mod 2 = 1) ks /\ Forall (fun n => 0 < n) ks.
Proof. intros shape ks kv (_ & H & _). split; eapply Forall_impl; [|exact H| |exact H]; cbn; tauto. Qed.

Lemma set_offset_flipped : forall which ks kv kv' d, Forall (fun n => 0 < n) ks -> Forall (fun n => n mod 2 = 1) ks -> length which = length ks ->
  (forall r r', flips which ks r r' -> zn kv' r' = zn kv r) -> set_offset ks kv d -> set_offset ks kv' (negate which d).
Proof.
  intros which ks kv kv' d HP HO LW HC (r & Pr & V & M).
  destruct (flipped_total which ks (coords ks r)) as (c & Hc & F); [now apply coords_inside|exact LW|].
  destruct (pixel_of_coords ks c Hc) as (r' & Pr' & <-). exists r'. split; [exact Pr'|].
  split; [fold (zn kv' r'); rewrite (HC r r'); [exact V|split; auto]|].
  eapply moved_flipped; [|exact (centre_flipped which ks HO LW)|exact F|exact M]. now apply centre_inside.
Qed.

Lemma flipped_step : forall per which shape ks kv kv' x x' y y', Forall (fun n => 0 < n) shape ->
  Forall (fun n => 0 < n) ks -> Forall (fun n => n mod 2 = 1) ks -> length which = length ks ->
  (forall r r', flips which ks r r' -> zn kv' r' = zn kv r) -> flips which shape x x' -> flips which shape y y' ->
  kernel_neighbour per shape ks kv x y -> kernel_neighbour per shape ks kv' x' y'.
Proof.
  intros per which shape ks kv kv' x x' y y' HS HP HO LW HC (A0 & A1 & A2) (B0 & B1 & B2) (C1 & C2 & d & K & M).
  split; [exact A1|]. split; [exact B1|]. exists (negate which d). split; [now apply (set_offset_flipped which ks kv)|].
  eapply moved_flipped; [|exact A2|exact B2|exact M]. now apply coords_inside.
Qed.

Lemma flipped_is_a_move : forall which shape per, good_shape shape -> length which = length shape ->
  one_to_one shape shape (flips which shape) /\ keeps_adjacent (flips which shape) (face_neighbour per shape) (face_neighbour per shape) /\
  forall ks kv kv', good_kernel shape ks kv -> carried (flips which ks) kv kv' ->
    keeps_adjacent (flips which shape) (kernel_neighbour per shape ks kv) (kernel_neighbour per shape ks kv').
Proof.
  intros which shape per HS Hd. pose proof (fun p => good_pos shape p HS) as HP. split; [apply flips_matching; auto|]. split.
  - intros x y x' y' (A0 & A1 & A2) (B0 & B1 & B2) _. pose proof (HP _ A0). unfold face_neighbour.
    assert (F : face per shape (coords shape x) (coords shape y) <-> face per shape (coords shape x') (coords shape y')).
    { split; intros F; [eapply face_flipped; [|exact A2|exact B2|exact F]; now apply coords_inside|].
      apply flipped_sym in A2. apply flipped_sym in B2. eapply face_flipped; [|exact A2|exact B2|exact F]; now apply coords_inside. }
    tauto.
  - intros ks kv kv' HK HC x y x' y' HX HY _. pose proof (HP _ (proj1 HX)) as HPos.
    destruct (good_kernel_odd _ _ _ HK) as [HO HPk]. pose proof (carried_zn _ _ _ HC) as HZ.
    assert (LW : length which = length ks) by (rewrite (proj1 HK); auto). split.
    + apply (flipped_step per which shape ks kv kv' x x' y y'); auto.
    + apply (flipped_step per which shape ks kv' kv x' x y' y); auto using flips_sym.
      intros r r' F. symmetry. apply HZ. now apply flips_sym.
Qed.

Lemma centre_arr : forall o ks, axes o (length ks) -> centre (arranged 0 o ks) = arranged 0 o (centre ks).
Proof.
  intros o ks HO. pose proof (axes_length _ _ HO). apply (arr_ext Z 0).
  - unfold centre. rewrite map_length, !arr_length. reflexivity.
  - unfold centre. rewrite map_length, arr_length. intros i Hi. pose proof (axes_bound o _ i HO ltac:(lia)) as B.
    set (f := fun m : Z => m / 2). rewrite (nth_indep _ 0 (f 0)) by (rewrite map_length, arr_length; exact Hi).
    rewrite map_nth, !arr_nth by lia. rewrite (nth_indep (map f ks) 0 (f 0)) by (rewrite map_length; exact B). rewrite map_nth. reflexivity.
Qed.

Lemma set_offset_arr : forall o ks kv kv' d, axes o (length ks) -> Forall (fun n => 0 < n) ks -> (forall r r', permutes o ks r r' -> zn kv' r' = zn kv r) ->
  set_offset ks kv d -> set_offset (arranged 0 o ks) kv' (arranged 0 o d).
Proof.
  intros o ks kv kv' d HO HP HC (r & Pr & V & M). destruct (permutes_total o _ HO ks r eq_refl HP Pr) as (r' & T).
  exists r'. split; [apply T|]. split; [fold (zn kv' r'); rewrite (HC r r' T); exact V|]. rewrite centre_arr by exact HO. destruct T as (_ & _ & ->).
  now apply (moved_arr o (length ks)).
Qed.

Lemma permuted_step : forall o per shape ks kv kv' x x' y y', axes o (length shape) -> length ks = length shape -> Forall (fun n => 0 < n) ks ->
  (forall r r', permutes o ks r r' -> zn kv' r' = zn kv r) -> permutes o shape x x' -> permutes o shape y y' ->
  kernel_neighbour per shape ks kv x y -> kernel_neighbour per (arranged 0 o shape) (arranged 0 o ks) kv' x' y'.
Proof.
  intros o per shape ks kv kv' x x' y y' HO LK HP HC (A0 & A1 & A2) (B0 & B1 & B2) (C1 & C2 & d & K & M).
  split; [exact A1|]. split; [exact B1|]. exists (arranged 0 o d). split; [apply (set_offset_arr o ks kv); auto; rewrite LK; auto|].
  rewrite A2, B2. now apply (moved_arr o (length shape)).
Qed.

Lemma permuted_is_a_move : forall order shape per, good_shape shape -> axes order (length shape) ->
  let shape' := arranged 0 order shape in
  one_to_one shape shape' (permutes order shape) /\ good_shape shape' /\ zprod shape' = zprod shape /\
  keeps_adjacent (permutes order shape) (face_neighbour per shape) (face_neighbour per shape') /\
  forall ks kv kv', good_kernel shape ks kv -> carried (permutes order ks) kv kv' ->
    keeps_adjacent (permutes order shape) (kernel_neighbour per shape ks kv) (kernel_neighbour per shape' (arranged 0 order ks) kv').
Proof.
  intros o shape per HS HO shape'. unfold shape'. pose proof (fun p => good_pos shape p HS) as HP.
  split; [apply permutes_matching; auto|]. split; [apply (good_shape_arr o (length shape)); auto|]. split; [apply zprod_arr; auto|]. split.
  - intros x y x' y' X Y _. pose proof X as (A1 & A2 & _). pose proof Y as (B1 & B2 & _). unfold face_neighbour.
    pose proof (permutes_back o shape (face per) HO (fun o0 s a b HO0 La Lb => face_arr o0 (length s) HO0 per s a b eq_refl La Lb) x x' y y' X Y) as Q. tauto.
  - intros ks kv kv' HK HC x y x' y' A B _. pose proof (carried_zn _ _ _ HC) as HZ.
    destruct (good_kernel_odd _ _ _ HK) as [_ HPk]. pose proof (proj1 HK) as LK.
    destruct (arr_inverse o _ HO) as (o' & HO' & I1 & I2). pose proof (axes_length _ _ HO) as LO.
    assert (LA : length (arranged 0 o shape) = length shape) by (rewrite arr_length; exact LO).
    assert (LAk : length (arranged 0 o ks) = length shape) by (rewrite arr_length; exact LO).
    split.
    + now apply (permuted_step o per shape ks kv kv').
    + intro K. apply (permuted_step o' per (arranged 0 o shape) (arranged 0 o ks) kv' kv x' x y' y) in K.
      * rewrite !I1 in K; auto.
      * rewrite LA. exact HO'.
      * congruence.
      * apply forall_arr; auto. rewrite LK. exact HO.
      * intros r r' T. apply (permutes_sym o' o) in T; [|intros z Lz; apply I2; lia]. rewrite I1 in T by exact LK. symmetry. now apply HZ.
      * apply (permutes_sym o o'); auto.
      * apply (permutes_sym o o'); auto.
Qed.
