(** * DerivedEnsemble: the two-point statistics of images moved as a whole (proofs only) *)

From Coq Require Import ZArith QArith Qcanon List Bool Lia Permutation.
From Verif Require Import Base BaseLemmas SpecCluster ClusterGeom ClusterMain Array3 Array3Lemmas Path SpecPath SpecDilate DilateTop
  Ensemble SpecEnsemble EnsembleSums EnsembleLin EnsembleWindow EnsembleTop SpecSymmetry SpecMoved DerivedCluster DerivedDilate.
Import ListNotations.
Open Scope Z_scope.

(** ** Sums over a moved image *)

Lemma forall2_total : forall (T : Z -> Z -> Prop) l, (forall x, In x l -> exists x', T x x') -> exists l', Forall2 T l l'.
Proof.
  induction l as [|x l IH]; intros H; [exists []; constructor|].
  destruct (H x) as (x' & Hx); [simpl; auto|]. destruct IH as (l' & Hl); [intros; apply H; simpl; auto|].
  exists (x' :: l'). constructor; auto.
Qed.

Lemma forall2_nodup : forall (T : Z -> Z -> Prop) l l', (forall x y x', T x x' -> T y x' -> x = y) ->
  Forall2 T l l' -> NoDup l -> NoDup l'.
Proof.
  intros T l l' Hi H. induction H as [|x x' l l' Hx H IH]; intros N; [constructor|]. inversion N; subst. constructor; auto.
  intros Hin. assert (exists y, In y l /\ T y x') as (y & Hy & HT).
  { clear -H Hin. induction H; [destruct Hin|]. destruct Hin as [->|Hin]; [exists x; simpl; auto|].
    destruct (IHForall2 Hin) as (z & Hz & HT). exists z. simpl. auto. }
  rewrite (Hi _ _ _ Hx HT) in H2. contradiction.
Qed.

Lemma sum_forall2 : forall (T : Z -> Z -> Prop) F G l l', Forall2 T l l' -> (forall x x', T x x' -> F x = G x') ->
  sum_over l F = sum_over l' G.
Proof. intros T F G l l' H HE. induction H; [reflexivity|]. rewrite !sum_cons. f_equal; auto. Qed.

Lemma sum_pixels_moved : forall shape shape' T F G, matching shape shape' T -> (forall x x', T x x' -> F x = G x') ->
  sum_over (pixels shape) F = sum_over (pixels shape') G.
Proof.
  intros shape shape' T F G (T0 & T1 & T2 & T3 & T4) HE.
  destruct (forall2_total T (pixels shape)) as (l' & Hl).
  { intros x Hx. apply T1. unfold pixels in Hx. apply zrange_In in Hx. exact Hx. }
  rewrite (sum_forall2 T F G _ _ Hl HE). apply sum_perm. apply NoDup_Permutation.
  - eapply forall2_nodup; eauto. apply zrange_NoDup.
  - apply zrange_NoDup.
  - intros x'. unfold pixels. rewrite zrange_In. split.
    + intros Hin. assert (exists y, T y x') as (y & HT).
      { clear -Hl Hin. induction Hl; [destruct Hin|]. destruct Hin as [->|Hin]; eauto. }
      apply (T0 _ _ HT).
    + intros Hx. destruct (T2 x' Hx) as (x & HT). assert (Hin : In x (pixels shape)).
      { unfold pixels. apply zrange_In. apply (T0 _ _ HT). }
      clear -Hl Hin HT T3. induction Hl as [|a b l m H Hl IH]; [destruct Hin|]. destruct Hin as [->|Hin]; [left; eapply T3; eauto|right; auto].
Qed.

Lemma sum_pairs_moved : forall per shape shape' T d d' F G, matching shape shape' T ->
  (forall p p' q q', T p p' -> T q q' -> movedb per shape (coords shape p) d (coords shape q) = movedb per shape' (coords shape' p') d' (coords shape' q')) ->
  (forall p p' q q', T p p' -> T q q' -> F (p, q) = G (p', q')) ->
  sum_over (pairs per shape d) F = sum_over (pairs per shape' d') G.
Proof.
  intros per shape shape' T d d' F G HT HM HE. unfold pairs. rewrite !sum_filter, !sum_prod.
  apply (sum_pixels_moved shape shape' T); auto. intros p p' Hp.
  apply (sum_pixels_moved shape shape' T); auto. intros q q' Hq. cbn [fst snd].
  rewrite (HM p p' q q') by auto. rewrite (HE p p' q q') by auto. reflexivity.
Qed.

(** ** What a call sums *)

Definition terms (var : bool) (c : call) : list Z * list Z * (Z * Z -> Qc) * (Z * Z -> Qc) * (Z * Z -> Qc) :=
  match c with
  | CallS2 f g m => (i_vals (fst (mask2 f m)), i_vals (snd (mask2 f m)),
      (fun pq => qn (i_vals f) (fst pq) * qn (i_vals g) (snd pq))%Qc, (fun _ => 0%Qc), (fun _ => 1%Qc))
  | CallC2 f g m => (i_vals (fst (mask2 f m)), i_vals (snd (mask2 f m)),
      (fun pq => if same_label (i_vals f) (i_vals g) pq then 1%Qc else 0%Qc), (fun _ => 0%Qc), (fun _ => 1%Qc))
  | CallW2 w g m => ([], i_vals (mask1 w m),
      (fun pq => qn (i_vals w) (fst pq) * qn (i_vals g) (snd pq))%Qc, (fun _ => 0%Qc), (fun pq => qn (i_vals w) (fst pq)))
  | CallHH f m => (i_vals (mask1 f m), i_vals (mask1 f m), sqdiff (i_vals f),
      (fun pq => if var then (sqdiff (i_vals f) pq * sqdiff (i_vals f) pq)%Qc else 0%Qc), (fun _ => 1%Qc))
  | _ => ([], [], fun _ => 0%Qc, fun _ => 0%Qc, fun _ => 0%Qc)
  end.

Definition pair_call (shape : list Z) (c : call) : Prop :=
  match c with
  | CallS2 f g m => is_image shape f /\ is_image shape g /\ is_mask shape (fst (mask2 f m)) /\ is_mask shape (snd (mask2 f m))
  | CallC2 f g m => is_image shape f /\ is_image shape g /\ is_mask shape (fst (mask2 f m)) /\ is_mask shape (snd (mask2 f m))
  | CallW2 w f m => is_image shape w /\ is_image shape f /\ is_mask shape (mask1 w m)
  | CallHH f m => is_image shape f /\ is_mask shape (mask1 f m)
  | _ => False
  end.

Definition value_of (s : stat) (f n : Qc) : value :=
  let v := Exact (f / safe n)%Qc in match s with S_heightheight => root v | _ => v end.

Lemma pair_call_ok : forall asrt per var roi shape c fm gm T1 T2 TN, shapes per roi shape -> pair_call shape c ->
  terms var c = (fm, gm, T1, T2, TN) ->
  exists e, fresh asrt roi per var c = Ok e /\ roi_shaped roi e /\
    forall r, pixel roi r -> let l := filter (seen shape fm gm (offset roi r)) (pairs per shape (offset roi r)) in
      first_at e r = sum_over l T1 /\ second_at e r = sum_over l T2 /\ norm_at e r = sum_over l TN /\
      result_at e r = value_of (stat_of c) (first_at e r) (norm_at e r).
Proof.
  intros asrt per var roi shape c fm gm T1 T2 TN HS Hc ET. destruct (shapes_dims3 _ _ _ HS) as (n0 & n1 & n2 & k0 & k1 & k2 & HD).
  assert (X : lin vecE (ixE k0 k1 k2) (before asrt (stat_of c) per var roi k0 k1 k2) (okS (stat_of c) per var roi k0 k1 k2) (fun e => add asrt e c)
                (Ok (tot3 per roi shape fm gm T1 T2 TN))).
  { destruct c; cbn [pair_call] in Hc; try contradiction; cbn [terms] in ET; injection ET as <- <- <- <- <-; cbn [stat_of add].
    - apply S2_lin with (1 := HD); tauto.
    - apply C2_lin with (1 := HD); tauto.
    - apply W2_lin with (1 := HD); tauto.
    - apply hh_lin with (1 := HD); tauto. }
  destruct (fresh_lin asrt per var roi shape n0 n1 n2 k0 k1 k2 (stat_of c) c _ HD X) as (e & E & O & SH & V).
  exists e. split; auto. split; auto. intros r Hr. destruct (V r Hr) as (Hr' & V1 & V2 & V3). unfold tot3 in V1, V2, V3. cbn [fst snd] in V1, V2, V3.
  cbv zeta. split; auto. split; auto. split; auto. rewrite (result_at_eq _ _ _ _ _ _ _ _ _ O Hr'). reflexivity.
Qed.

(** ** Moving a call *)

Lemma carried_qn : forall T a b, carried T a b -> forall p q, T p q -> qn b q = qn a p.
Proof.
  intros T a b H p q HT. specialize (H p q HT). unfold qn.
  destruct (nth_error a (Z.to_nat p)) as [x|] eqn:E.
  - rewrite (nth_error_nth _ _ _ H), (nth_error_nth _ _ _ E). auto.
  - apply nth_error_None in E. apply nth_error_None in H. rewrite !nth_overflow; auto.
Qed.

Lemma zn_nil : forall p, zn [] p = 0.
Proof. intros p. unfold zn. destruct (Z.to_nat p); reflexivity. Qed.

Lemma carried_pair_call : forall T shape shape' c c', Forall (fun n => 1 <= n) shape -> Forall (fun n => 1 <= n) shape' ->
  carried_call T shape shape' c c' -> pair_call shape c /\ pair_call shape' c' /\ stat_of c' = stat_of c.
Proof.
  intros T shape shape' c c' HP HP' H.
  pose proof (zeros_mask shape HP). pose proof (zeros_mask shape' HP').
  destruct c, c'; cbn [carried_call] in H; try contradiction; cbn [pair_call stat_of].
  - destruct H as ((A1 & A2 & _) & (B1 & B2 & _) & C). destruct A1 as [A1 A1'], A2 as [A2 A2'].
    destruct masks as [[m1 m2]|], masks0 as [[m1' m2']|]; cbn [carried_option mask2 fst snd] in *; try contradiction; rewrite ?A1, ?A2.
    + destruct C as ((C1 & C2 & _) & (C3 & C4 & _)). repeat split; auto; try apply B1; try apply B2; try apply C1; try apply C2; try apply C3; apply C4.
    + repeat split; auto; try apply B1; try apply B2; try apply H0; apply H1.
  - destruct H as ((A1 & A2 & _) & (B1 & B2 & _) & C). destruct A1 as [A1 A1'], A2 as [A2 A2'].
    destruct masks as [[m1 m2]|], masks0 as [[m1' m2']|]; cbn [carried_option mask2 fst snd] in *; try contradiction; rewrite ?A1, ?A2.
    + destruct C as ((C1 & C2 & _) & (C3 & C4 & _)). repeat split; auto; try apply B1; try apply B2; try apply C1; try apply C2; try apply C3; apply C4.
    + repeat split; auto; try apply B1; try apply B2; try apply H0; apply H1.
  - destruct H as ((A1 & A2 & _) & (B1 & B2 & _) & C). destruct A1 as [A1 A1'], A2 as [A2 A2'].
    destruct fmask as [m1|], fmask0 as [m1'|]; cbn [carried_option mask1] in *; try contradiction; rewrite ?A1, ?A2.
    + destruct C as (C1 & C2 & _). repeat split; auto; try apply B1; try apply B2; try apply C1; try apply C2.
    + repeat split; auto; try apply B1; try apply B2; try apply H0; apply H1.
  - destruct H as ((A1 & A2 & _) & C). destruct A1 as [A1 A1'], A2 as [A2 A2'].
    destruct fmask as [m1|], fmask0 as [m1'|]; cbn [carried_option mask1] in *; try contradiction; rewrite ?A1, ?A2.
    + destruct C as (C1 & C2 & _). repeat split; auto; try apply C1; try apply C2.
    + repeat split; auto; try apply H0; apply H1.
Qed.

Lemma carried_terms : forall T var shape shape' c c' fm gm T1 T2 TN fm' gm' T1' T2' TN',
  carried_call T shape shape' c c' ->
  terms var c = (fm, gm, T1, T2, TN) -> terms var c' = (fm', gm', T1', T2', TN') ->
  (forall p p', T p p' -> zn fm p = zn fm' p' /\ zn gm p = zn gm' p') /\
  (forall p p' q q', T p p' -> T q q' -> T1 (p, q) = T1' (p', q') /\ T2 (p, q) = T2' (p', q') /\ TN (p, q) = TN' (p', q')).
Proof.
  intros T var shape shape' c c' fm gm T1 T2 TN fm' gm' T1' T2' TN' H E E'.
  destruct c, c'; cbn [carried_call] in H; try contradiction; cbn [terms] in E, E'; injection E as <- <- <- <- <-; injection E' as <- <- <- <- <-.
  - destruct H as ((_ & _ & A) & (_ & _ & B) & C). pose proof (carried_qn _ _ _ A) as QA. pose proof (carried_qn _ _ _ B) as QB. split.
    + intros p p' HT. destruct masks as [[m1 m2]|], masks0 as [[m1' m2']|]; cbn [carried_option mask2 fst snd] in *; try contradiction.
      * destruct C as ((_ & _ & C1) & (_ & _ & C2)). rewrite (carried_zn _ _ _ C1 _ _ HT), (carried_zn _ _ _ C2 _ _ HT). auto.
      * cbn [zeros i_vals]. rewrite !zn_repeat0. auto.
    + intros p p' q q' Hp Hq. cbn [fst snd]. rewrite (QA _ _ Hp), (QB _ _ Hq). auto.
  - destruct H as ((_ & _ & A) & (_ & _ & B) & C). pose proof (carried_zn _ _ _ A) as QA. pose proof (carried_zn _ _ _ B) as QB. split.
    + intros p p' HT. destruct masks as [[m1 m2]|], masks0 as [[m1' m2']|]; cbn [carried_option mask2 fst snd] in *; try contradiction.
      * destruct C as ((_ & _ & C1) & (_ & _ & C2)). rewrite (carried_zn _ _ _ C1 _ _ HT), (carried_zn _ _ _ C2 _ _ HT). auto.
      * cbn [zeros i_vals]. rewrite !zn_repeat0. auto.
    + intros p p' q q' Hp Hq. unfold same_label. cbn [fst snd]. rewrite (QA _ _ Hp), (QB _ _ Hq). auto.
  - destruct H as ((_ & _ & A) & (_ & _ & B) & C). pose proof (carried_qn _ _ _ A) as QA. pose proof (carried_qn _ _ _ B) as QB. split.
    + intros p p' HT. rewrite !zn_nil. split; auto. destruct fmask as [m1|], fmask0 as [m1'|]; cbn [carried_option mask1] in *; try contradiction.
      * destruct C as (_ & _ & C1). rewrite (carried_zn _ _ _ C1 _ _ HT). auto.
      * cbn [zeros i_vals]. rewrite !zn_repeat0. auto.
    + intros p p' q q' Hp Hq. cbn [fst snd]. rewrite (QA _ _ Hp), (QB _ _ Hq). auto.
  - destruct H as ((_ & _ & A) & C). pose proof (carried_qn _ _ _ A) as QA. split.
    + intros p p' HT. destruct fmask as [m1|], fmask0 as [m1'|]; cbn [carried_option mask1] in *; try contradiction.
      * destruct C as (_ & _ & C1). rewrite (carried_zn _ _ _ C1 _ _ HT). auto.
      * cbn [zeros i_vals]. rewrite !zn_repeat0. auto.
    + intros p p' q q' Hp Hq. unfold sqdiff. cbn [fst snd]. rewrite (QA _ _ Hp), (QA _ _ Hq). auto.
Qed.

(** General form: the offset [d] of the image becomes [D d] in the moved one. *)
Lemma moved_call : forall asrt per var roi roi' shape shape' T c c' (D : list Z -> list Z),
  shapes per roi shape -> shapes per roi' shape' -> matching shape shape' T -> carried_call T shape shape' c c' ->
  (forall d p p' q q', length d = length shape -> T p p' -> T q q' ->
     movedb per shape (coords shape p) d (coords shape q) = movedb per shape' (coords shape' p') (D d) (coords shape' q')) ->
  (no_mask c \/ forall d p p' q q', length d = length shape -> T p p' -> T q q' ->
     movedb false shape (coords shape p) d (coords shape q) = movedb false shape' (coords shape' p') (D d) (coords shape' q')) ->
  exists e e', fresh asrt roi per var c = Ok e /\ fresh asrt roi' per var c' = Ok e' /\ roi_shaped roi e /\ roi_shaped roi' e' /\
    forall r r', pixel roi r -> pixel roi' r' -> offset roi' r' = D (offset roi r) -> same_at e r e' r'.
Proof.
  intros asrt per var roi roi' shape shape' T c c' D HS HS' HT HC HM HM'.
  destruct (carried_pair_call T shape shape' c c') as (P & P' & ES); auto; try apply HS; try apply HS'.
  destruct (terms var c) as [[[[fm gm] T1] T2] TN] eqn:E. destruct (terms var c') as [[[[fm' gm'] T1'] T2'] TN'] eqn:E'.
  destruct (carried_terms T var shape shape' c c' _ _ _ _ _ _ _ _ _ _ HC E E') as [HZ HE].
  destruct (pair_call_ok asrt per var roi shape c _ _ _ _ _ HS P E) as (e & Ee & S1 & V).
  destruct (pair_call_ok asrt per var roi' shape' c' _ _ _ _ _ HS' P' E') as (e' & Ee' & S1' & V').
  exists e, e'. split; auto. split; auto. split; auto. split; auto. intros r r' Hr Hr' HO.
  destruct (V r Hr) as (A1 & A2 & A3 & A4). destruct (V' r' Hr') as (B1 & B2 & B3 & B4). cbv zeta in *.
  set (d := offset roi r) in *. rewrite HO in *.
  assert (HL : length d = length shape).
  { unfold d, offset, diff. rewrite map_length, combine_length, coords_length, anchor_length. destruct HS as (HL & _). lia. }
  assert (SE : forall p p' q q', T p p' -> T q q' -> seen shape fm gm d (p, q) = seen shape' fm' gm' (D d) (p', q')).
  { intros p p' q q' Hp Hq. unfold seen. cbn [fst snd]. destruct (HZ _ _ Hp) as [Z1 Z2]. destruct (HZ _ _ Hq) as [Z3 Z4].
    rewrite Z1, Z4. f_equal. destruct HM' as [HM'|HM']; [|rewrite (HM' d p p' q q'); auto].
    destruct HT as (T0 & _).
    assert (X : zn gm' q' = 0).
    { assert (NM : no_mask c') by (clear -HM' HC; destruct c, c'; cbn in *; try contradiction; repeat match goal with m : option _ |- _ => destruct m end; cbn in *; tauto).
      clear -NM E'. destruct c'; cbn [no_mask] in NM; try contradiction.
      - destruct masks; [contradiction|]. cbn [terms mask2 fst snd zeros i_vals] in E'. injection E' as _ <- _ _ _. apply zn_repeat0.
      - destruct masks; [contradiction|]. cbn [terms mask2 fst snd zeros i_vals] in E'. injection E' as _ <- _ _ _. apply zn_repeat0.
      - destruct fmask; [contradiction|]. cbn [terms mask1 zeros i_vals] in E'. injection E' as _ <- _ _ _. apply zn_repeat0.
      - destruct fmask; [contradiction|]. cbn [terms mask1 zeros i_vals] in E'. injection E' as _ <- _ _ _. apply zn_repeat0. }
    rewrite X. reflexivity. }
  assert (SUM : forall F G, (forall p p' q q', T p p' -> T q q' -> F (p, q) = G (p', q')) ->
    sum_over (filter (seen shape fm gm d) (pairs per shape d)) F = sum_over (filter (seen shape' fm' gm' (D d)) (pairs per shape' (D d))) G).
  { intros F G HFG. rewrite !sum_filter. apply (sum_pairs_moved per shape shape' T); auto.
    intros p p' q q' Hp Hq. rewrite (SE p p' q q'), (HFG p p' q q') by auto. reflexivity. }
  unfold same_at.
  assert (X1 : first_at e' r' = first_at e r) by (rewrite A1, B1; symmetry; apply SUM; intros; apply HE; auto).
  assert (X2 : second_at e' r' = second_at e r) by (rewrite A2, B2; symmetry; apply SUM; intros; apply HE; auto).
  assert (X3 : norm_at e' r' = norm_at e r) by (rewrite A3, B3; symmetry; apply SUM; intros; apply HE; auto).
  split; auto. split; auto. split; auto. rewrite A4, B4, X1, X3, ES. reflexivity.
Qed.

(** ** Instances *)

Lemma bool_iff : forall a b : bool, (a = true <-> b = true) -> a = b.
Proof. intros [] []; intuition congruence. Qed.

Lemma list_ext_qn : forall a b : list Qc, length a = length b -> (forall p, 0 <= p < lenZ a -> qn a p = qn b p) -> a = b.
Proof.
  intros a b HL H. apply (nth_ext a b 0%Qc 0%Qc); auto. intros n Hn. specialize (H (Z.of_nat n)).
  unfold qn in H. rewrite Nat2Z.id in H. apply H. unfold lenZ. lia.
Qed.

Lemma roll_call : forall asrt var roi shape d c c', shapes true roi shape -> length d = length shape ->
  carried_call (rolls d shape) shape shape c c' -> no_mask c ->
  same_data (fresh asrt roi true var c) (fresh asrt roi true var c').
Proof.
  intros asrt var roi shape d c c' HS Hd HC HN.
  assert (HP : Forall (fun n => 0 < n) shape) by (apply image_pos; apply HS).
  destruct (moved_call asrt true var roi roi shape shape (rolls d shape) c c' (fun x => x) HS HS) as (e & e' & E & E' & S1 & S2 & V); auto.
  - apply rolls_matching; auto.
  - intros x p p' q q' _ (Pp & Pp' & Mp) (Pq & Pq' & Mq). apply bool_iff. rewrite !movedb_iff. split; intros M.
    + eapply moved_commute; eauto.
    + apply moved_sym in Mp; auto using coords_inside. apply moved_sym in Mq; auto using coords_inside.
      eapply moved_commute; eauto.
  - exists e, e'. split; auto. split; auto. destruct S1 as (L1 & L2 & L3 & L4), S2 as (L1' & L2' & L3' & L4').
    assert (W : forall r, 0 <= r < zprod roi -> same_at e r e' r) by (intros r Hr; apply V; auto).
    repeat split.
    + apply list_ext_qn; [unfold lenZ in *; lia|]. intros r Hr. symmetry. apply (W r). lia.
    + apply list_ext_qn; [unfold lenZ in *; lia|]. intros r Hr. symmetry. apply (W r). lia.
    + apply list_ext_qn; [unfold lenZ in *; lia|]. intros r Hr. symmetry. apply (W r). lia.
    + apply (nth_ext _ _ NaN NaN); [unfold lenZ in *; lia|]. intros n Hn. symmetry.
      destruct (W (Z.of_nat n)) as (_ & _ & _ & X); [unfold lenZ in *; lia|]. unfold result_at in X. rewrite Nat2Z.id in X. exact X.
Qed.

Lemma flipped_moved : forall per which shape d a b a' b', inside shape a -> inside shape b ->
  flipped which shape a a' -> flipped which shape b b' -> length d = length shape ->
  moved per shape a d b -> moved per shape a' (flipped_offset which d) b'.
Proof.
  intros per. induction which as [|w which IH]; intros [|n shape] [|t d] [|x a] [|y b] [|x' a'] [|y' b']; cbn [flipped moved flipped_offset inside length]; try tauto; try lia.
  intros [Hx Ha] [Hy Hb] [-> Fa] [-> Fb] HL [M Ms]. assert (HL' : length d = length shape) by lia. split; [|exact (IH shape d a b a' b' Ha Hb Fa Fb HL' Ms)].
  destruct w; [|auto]. destruct per; [|lia]. rewrite M.
  pose proof (Z.div_mod (x + t) n ltac:(lia)). pose proof (Z.mod_pos_bound (x + t) n ltac:(lia)).
  apply (Z.mod_unique _ _ (- ((x + t) / n))); [left|]; lia.
Qed.

Lemma flipped_offset_twice : forall which d, flipped_offset which (flipped_offset which d) = d.
Proof. induction which as [|w which IH]; intros [|t d]; cbn [flipped_offset]; auto. rewrite IH. f_equal. destruct w; lia. Qed.

Lemma flipped_offset_length : forall which d, length (flipped_offset which d) = length d.
Proof. induction which as [|w which IH]; intros [|t d]; cbn [flipped_offset length]; auto. Qed.

Lemma flip_call : forall asrt per var roi shape which c c', shapes per roi shape -> length which = length shape ->
  carried_call (flips which shape) shape shape c c' ->
  exists e e', fresh asrt roi per var c = Ok e /\ fresh asrt roi per var c' = Ok e' /\
    forall r r', pixel roi r -> pixel roi r' -> offset roi r' = flipped_offset which (offset roi r) -> same_at e r e' r'.
Proof.
  intros asrt per var roi shape which c c' HS Hd HC.
  assert (HP : Forall (fun n => 0 < n) shape) by (apply image_pos; apply HS).
  assert (M : forall per' d p p' q q', length d = length shape -> flips which shape p p' -> flips which shape q q' ->
    movedb per' shape (coords shape p) d (coords shape q) = movedb per' shape (coords shape p') (flipped_offset which d) (coords shape q')).
  { intros per' d p p' q q' HL (Pp & Pp' & Fp) (Pq & Pq' & Fq). apply bool_iff. rewrite !movedb_iff. split; intros M.
    - eapply flipped_moved; [| |exact Fp|exact Fq|exact HL|exact M]; apply coords_inside; auto.
    - rewrite <- (flipped_offset_twice which d). apply flipped_sym in Fp. apply flipped_sym in Fq.
      eapply flipped_moved; [| |exact Fp|exact Fq|rewrite flipped_offset_length; exact HL|exact M]; apply coords_inside; auto. }
  destruct (moved_call asrt per var roi roi shape shape (flips which shape) c c' (flipped_offset which) HS HS) as (e & e' & E & E' & S1 & S2 & V); auto.
  - apply flips_matching; auto.
  - exists e, e'. auto.
Qed.

Lemma moved_app : forall per s a d b s' a' d' b', moved per s a d b -> moved per s' a' d' b' ->
  moved per (s ++ s') (a ++ a') (d ++ d') (b ++ b').
Proof.
  intros per. induction s as [|n s IH]; intros [|x a] [|t d] [|y b] s' a' d' b'; cbn [moved app]; try tauto.
  intros [H1 H2] H3. auto.
Qed.

Lemma moved_rev : forall per s a d b, moved per s a d b -> moved per (rev s) (rev a) (rev d) (rev b).
Proof.
  intros per. induction s as [|n s IH]; intros [|x a] [|t d] [|y b]; cbn [moved rev]; try tauto.
  intros [H1 H2]. apply moved_app; auto. cbn [moved]. auto.
Qed.

Lemma half_fits_app : forall s k s' k', length s = length k -> half_fits s k -> half_fits s' k' -> half_fits (s ++ s') (k ++ k').
Proof.
  induction s as [|n s IH]; intros [|x k] s' k'; cbn [half_fits app length]; try lia; auto. intros HL [H1 H2] H3. split; auto.
Qed.

Lemma half_fits_rev : forall s k, length s = length k -> half_fits s k -> half_fits (rev s) (rev k).
Proof.
  induction s as [|n s IH]; intros [|x k]; cbn [half_fits rev length]; try lia; auto. intros HL [H1 H2].
  apply half_fits_app; [rewrite !rev_length; lia|apply IH; auto; lia|cbn [half_fits]; auto].
Qed.

Lemma shapes_rev : forall per roi shape, shapes per roi shape -> shapes per (rev roi) (rev shape).
Proof.
  intros per roi shape (H1 & H2 & H3 & H4 & H5). repeat split; rewrite ?rev_length; auto using Forall_rev.
  intros HP. apply half_fits_rev; auto.
Qed.

Lemma transpose_call : forall asrt per var roi shape c c', shapes per roi shape ->
  carried_call (transposes shape) shape (rev shape) c c' ->
  exists e e', fresh asrt roi per var c = Ok e /\ fresh asrt (rev roi) per var c' = Ok e' /\
    forall r r', pixel roi r -> pixel (rev roi) r' -> offset (rev roi) r' = rev (offset roi r) -> same_at e r e' r'.
Proof.
  intros asrt per var roi shape c c' HS HC. pose proof (shapes_rev _ _ _ HS) as HS'.
  assert (HP : Forall (fun n => 0 < n) shape) by (apply image_pos; apply HS).
  assert (M : forall per' d p p' q q', transposes shape p p' -> transposes shape q q' ->
    movedb per' shape (coords shape p) d (coords shape q) = movedb per' (rev shape) (coords (rev shape) p') (rev d) (coords (rev shape) q')).
  { intros per' d p p' q q' (Pp & Pp' & Fp) (Pq & Pq' & Fq). apply bool_iff. rewrite !movedb_iff, Fp, Fq. split; intros M.
    - apply moved_rev; auto.
    - apply moved_rev in M. rewrite !rev_involutive in M. auto. }
  destruct (moved_call asrt per var roi (rev roi) shape (rev shape) (transposes shape) c c' (@rev Z) HS HS') as (e & e' & E & E' & S1 & S2 & V); auto.
  - apply transposes_matching; auto.
  - exists e, e'. auto.
Qed.
