(** * Links: proofs of C149 *)

From Coq Require Import ZArith QArith Qcanon List Bool Lia.
From Verif Require Import Base BaseLemmas SpecCluster SpecDilate ClusterGeom DerivedCluster DerivedDilate Path SpecPath Ensemble SpecEnsemble SpecAlgebra SpecRelations
  SpecPositive SpecLinks EnsembleSums EnsembleTop DerivedEnsemble DerivedAlgebra DerivedRelations EnsembleRun PositiveDefinite.
Import ListNotations.
Open Scope Z_scope.

Lemma only_qn : forall shape v f p, is_image shape f -> pixel shape p ->
  qn (i_vals (only v f)) p = if zn (i_vals f) p =? v then 1%Qc else 0%Qc.
Proof. intros shape v f p [_ L] P. unfold only, each. cbn [i_vals]. rewrite (each_qn _ 0) by (unfold pixel in P; lia). reflexivity. Qed.

Lemma safe_scale : forall A (l : list A) (s : A -> Qc) n, (sum_over l s / n = sum_over l (fun v => s v / n))%Qc.
Proof. intros. unfold Qcdiv. rewrite Qcmult_comm, <- sum_scale. apply sum_ext. intros. ring. Qed.

Lemma C2_of_labels : forall asrt per var roi shape f g m names, shapes per roi shape -> is_image shape f -> is_image shape g -> masks_of shape m ->
  NoDup names -> ~ In 0 names -> (forall x, In x (i_vals f) -> x <> 0 -> In x names) ->
  exists e s, fresh asrt roi per var (CallC2 f g m) = Ok e /\
    (forall v, In v names -> exists ev, fresh asrt roi per var (CallS2 (only v f) (only v g) m) = Ok ev /\
       forall r, pixel roi r -> result_at ev r = Exact (s v r)) /\
    forall r, pixel roi r -> result_at e r = Exact (sum_over names (fun v => s v r)).
Proof.
  intros asrt per var roi shape f g m names HS Hf Hg HM ND N0 HN.
  destruct (C2_any asrt per var roi shape f g m HS Hf Hg HM) as (e & E & S & V).
  set (sn := fun r => filter (seen shape (i_vals (fst (mask2 f m))) (i_vals (snd (mask2 f m))) (offset roi r)) (pairs per shape (offset roi r))).
  set (N := fun r => sum_over (sn r) (fun _ => 1%Qc)).
  exists e, (fun v r => sum_over (sn r) (fun pq => (if zn (i_vals f) (fst pq) =? v then 1 else 0) * (if zn (i_vals g) (snd pq) =? v then 1 else 0)) / safe (N r))%Qc.
  split; auto. split.
  - intros v Hv. destruct (S2_any asrt per var roi shape (only v f) (only v g) m HS (each_image _ _ _ _ _ Hf) (each_image _ _ _ _ _ Hg) HM) as (ev & E' & S' & V').
    exists ev. split; auto. intros r Hr. destruct (V' r Hr) as (B1 & B2 & B3 & B4). cbv zeta in *. rewrite B4, B3, B1.
    rewrite (mask2_shape _ _ (only v f) f m eq_refl) in *. fold (sn r). fold (N r). f_equal. f_equal. apply sum_ext. intros [p q] H.
    unfold sn in H. apply seen_In in H. destruct H as (P & Q & _). cbn [fst snd]. rewrite (only_qn shape v f p), (only_qn shape v g q) by auto. reflexivity.
  - intros r Hr. destruct (V r Hr) as (A1 & A2 & A3 & A4). cbv zeta in *. rewrite A4, A3, A1. fold (sn r). fold (N r). f_equal.
    rewrite <- safe_scale. f_equal. rewrite sum_swap. apply sum_ext. intros [p q] H. unfold sn in H. apply seen_In in H. destruct H as (P & Q & _).
    unfold same_label. cbn [fst snd]. set (a := zn (i_vals f) p). set (b := zn (i_vals g) q).
    assert (IA : In a (i_vals f)). { unfold a, zn. apply nth_In. destruct Hf as [_ L]. unfold pixel, lenZ in *. lia. }
    destruct (Z.eqb_spec a 0) as [Z|NZ]; cbn [negb andb].
    + symmetry. transitivity (sum_over names (fun _ => 0%Qc)); [|apply sum_zero]. apply sum_ext. intros v Hv. destruct (Z.eqb_spec a v) as [EV|_]; [|ring]. exfalso. apply N0. congruence.
    + rewrite (sum_ext _ names _ (fun v => if a =? v then (if a =? b then 1 else 0) else 0)%Qc).
      * symmetry. apply (sum_single names (fun v => a =? v) (fun _ => if a =? b then 1%Qc else 0%Qc) a ND (HN a IA NZ)). intros v _. rewrite Z.eqb_eq. split; congruence.
      * intros v _. destruct (Z.eqb_spec a v) as [->|_]; [rewrite (Z.eqb_sym b); ring|ring].
Qed.

Lemma zero_plus : forall (shape x d : list Z), length x = length shape -> length d = length shape -> zero_offset d -> plus_offset x d = x.
Proof.
  unfold plus_offset. induction shape as [|n s IH]; intros [|a x] [|b d] Hx Hd H; cbn in *; try discriminate; auto.
  f_equal; [rewrite (H b) by (left; auto); lia|]. apply IH; try lia. intros t Ht. apply H. right; auto.
Qed.

Lemma hh_pairs : forall roi shape v r r0, shapes true roi shape -> pixel roi r -> pixel roi r0 -> zero_offset (offset roi r0) ->
  sum_over (pairs true shape (offset roi r)) (sqdiff v) =
  ((1 + 1) * (sum_over (pairs true shape (offset roi r0)) (fun pq => qn v (fst pq) * qn v (snd pq)) - sum_over (pairs true shape (offset roi r)) (fun pq => qn v (fst pq) * qn v (snd pq))))%Qc.
Proof.
  intros roi shape v r r0 HS Hr Hr0 HZ.
  assert (LO : forall r, length (offset roi r) = length shape) by (intros; rewrite offset_length; apply HS).
  pose proof (shape_pos _ _ _ HS) as HP. set (d := offset roi r). set (d0 := offset roi r0) in *.
  assert (X1 : sum_over (pairs true shape d0) (fun pq => qn v (fst pq) * qn v (snd pq))%Qc = sum_over (pixels shape) (fun p => qn v (at_ shape d0 p) * qn v (at_ shape d0 p))%Qc).
  { rewrite (sum_pairs_places shape d0 d0 _ HP (LO r0) (LO r0)). rewrite (zero_plus shape d0 d0) by (auto; apply LO). reflexivity. }
  assert (X2 : sum_over (pairs true shape d0) (fun pq => qn v (fst pq) * qn v (snd pq))%Qc = sum_over (pixels shape) (fun p => qn v (at_ shape d p) * qn v (at_ shape d p))%Qc).
  { rewrite (sum_pairs_places shape d d0 _ HP (LO r) (LO r0)). rewrite (zero_plus shape d d0) by (auto; apply LO). reflexivity. }
  assert (PZ : plus_offset d0 d = d).
  { pose proof (LO r0) as L0. pose proof (LO r) as L. fold d0 in L0. fold d in L. clearbody d d0. clear - HZ L L0. unfold plus_offset. revert d d0 HZ L L0.
    induction shape as [|n s IH]; intros [|a x] [|b y] H L L0; cbn in *; try discriminate; auto.
    f_equal; [rewrite (H b) by (left; auto); lia|]. apply IH; try lia. intros t Ht. apply H. right; auto. }
  rewrite !(sum_pairs_places shape d0 d _ HP (LO r0) (LO r)). rewrite PZ. unfold sqdiff. cbn [fst snd].
  rewrite (sum_ext _ (pixels shape) _ (fun p => qn v (at_ shape d0 p) * qn v (at_ shape d0 p) + (qn v (at_ shape d p) * qn v (at_ shape d p) + - (1 + 1) * (qn v (at_ shape d0 p) * qn v (at_ shape d p))))%Qc) by (intros; ring).
  rewrite !sum_plus, sum_scale, <- X1, <- X2. ring.
Qed.

Lemma hh_from_S2 : forall asrt var roi e0 fs, ensemble asrt roi true var = Ok e0 -> images roi fs ->
  exists e e' s, run asrt (autocorrelations fs) e0 = Ok e /\ (forall r, pixel roi r -> result_at e r = Exact (s r)) /\
    run asrt (height_calls fs) e0 = Ok e' /\
    forall r r0, pixel roi r -> pixel roi r0 -> zero_offset (offset roi r0) -> result_at e' r = Root ((1 + 1) * (s r0 - s r))%Qc.
Proof.
  intros asrt var roi e0 fs HE HI.
  destruct (run_pairs _ asrt var roi fs e0 (fun f => CallS2 f f None) (fun f pq => qn (i_vals f) (fst pq) * qn (i_vals f) (snd pq))%Qc S_S2 HI HE) as (e & E & V); auto.
  { intros f Hf. destruct (proj2 HI f Hf) as [HS Hi]. destruct (S2_periodic asrt var roi (i_shape f) f f HS Hi Hi) as (ec & Ec & _ & W). exists ec. split; auto. intros r Hr. destruct (W r Hr) as (A & B & _). auto. }
  destruct (hh_run asrt var roi e0 fs HE HI) as (e' & E' & V').
  eexists e, e', _. split; [exact E|]. split; [exact V|]. split; [exact E'|]. intros r r0 Hr Hr0 HZ. rewrite (V' r Hr). f_equal.
  rewrite (sum_ext _ fs _ (fun f => (1 + 1) * (sum_over (pairs true (i_shape f) (offset roi r0)) (fun pq => qn (i_vals f) (fst pq) * qn (i_vals f) (snd pq)) + - (1) * sum_over (pairs true (i_shape f) (offset roi r)) (fun pq => qn (i_vals f) (fst pq) * qn (i_vals f) (snd pq))))%Qc).
  - rewrite sum_scale, sum_plus, sum_scale. unfold Qcdiv. ring.
  - intros f Hf. rewrite (hh_pairs roi (i_shape f) (i_vals f) r r0) by (auto; apply (proj2 HI f Hf)). ring.
Qed.

(** ** heightheight with masks *)

Lemma safe_gt : forall n, (0 < safe n)%Qc.
Proof. intros n. unfold safe. destruct (Qclt_b 0 n) eqn:E; [apply Qclt_b_iff; auto|reflexivity]. Qed.

Lemma HH_by_S2 : forall asrt per var roi shape f m, shapes per roi shape -> is_image shape f -> mask_of shape m ->
  let sq := each (fun x => x * x)%Qc f in
  let one := each (fun _ => 1%Qc) f in
  let mm := match m with Some m => Some (m, m) | None => None end in
  exists e e1 e2 e3 a b c, fresh asrt roi per var (CallHH f m) = Ok e /\
    fresh asrt roi per var (CallS2 sq one mm) = Ok e1 /\ fresh asrt roi per var (CallS2 one sq mm) = Ok e2 /\ fresh asrt roi per var (CallS2 f f mm) = Ok e3 /\
    forall r, pixel roi r -> result_at e1 r = Exact (a r) /\ result_at e2 r = Exact (b r) /\ result_at e3 r = Exact (c r) /\
      result_at e r = Root (a r + b r - (1 + 1) * c r)%Qc.
Proof.
  intros asrt per var roi shape f m HS Hf HM sq one mm.
  assert (HM2 : masks_of shape mm) by (unfold mm; destruct m; cbn in *; auto).
  destruct (HH_any asrt per var roi shape f m HS Hf HM) as (e & E & S & V).
  destruct (S2_any asrt per var roi shape sq one mm HS (each_image _ _ _ _ _ Hf) (each_image _ _ _ _ _ Hf) HM2) as (e1 & E1 & S1 & V1).
  destruct (S2_any asrt per var roi shape one sq mm HS (each_image _ _ _ _ _ Hf) (each_image _ _ _ _ _ Hf) HM2) as (e2 & E2 & S2 & V2).
  destruct (S2_any asrt per var roi shape f f mm HS Hf Hf HM2) as (e3 & E3 & S3 & V3).
  exists e, e1, e2, e3, (fun r => first_at e1 r / safe (norm_at e1 r))%Qc, (fun r => first_at e2 r / safe (norm_at e2 r))%Qc, (fun r => first_at e3 r / safe (norm_at e3 r))%Qc.
  do 4 (split; auto). intros r Hr. destruct (V r Hr) as (A1 & A2 & A3 & A4). destruct (V1 r Hr) as (B1 & B2 & B3 & B4). destruct (V2 r Hr) as (C1 & C2 & C3 & C4). destruct (V3 r Hr) as (D1 & D2 & D3 & D4). cbv zeta in *.
  do 3 (split; auto). rewrite A4.
  assert (M0 : mask2 f mm = (mask1 f m, mask1 f m)) by (unfold mm; destruct m; reflexivity).
  rewrite (mask2_shape _ _ sq f mm eq_refl) in B1, B3. rewrite (mask2_shape _ _ one f mm eq_refl) in C1, C3. rewrite M0 in *. cbn [fst snd] in *.
  set (l := filter _ (pairs per shape (offset roi r))) in *.
  assert (X : forall p q, In (p, q) l -> pixel shape p /\ pixel shape q) by (intros p q H; unfold l in H; apply seen_In in H; tauto).
  assert (QS : forall p, pixel shape p -> qn (i_vals sq) p = (qn (i_vals f) p * qn (i_vals f) p)%Qc /\ qn (i_vals one) p = 1%Qc).
  { intros p P. destruct Hf as [_ L]. unfold sq, one, each. cbn [i_vals]. rewrite !(each_qn _ 0%Qc) by (unfold pixel in P; lia). split; reflexivity. }
  assert (SE : first_at e r = (first_at e1 r + first_at e2 r - (1 + 1) * first_at e3 r)%Qc).
  { rewrite A1, B1, C1, D1. replace (- ((1 + 1) * sum_over l (fun pq => qn (i_vals f) (fst pq) * qn (i_vals f) (snd pq))))%Qc with (- (1 + 1) * sum_over l (fun pq => qn (i_vals f) (fst pq) * qn (i_vals f) (snd pq)))%Qc by ring.
    unfold Qcminus. replace (- ((1 + 1) * sum_over l (fun pq => qn (i_vals f) (fst pq) * qn (i_vals f) (snd pq))))%Qc with (- (1 + 1) * sum_over l (fun pq => qn (i_vals f) (fst pq) * qn (i_vals f) (snd pq)))%Qc by ring.
    rewrite <- sum_scale, <- !sum_plus. apply sum_ext. intros [p q] H. destruct (X p q H) as [P Q]. unfold sqdiff. cbn [fst snd]. destruct (QS p P) as [-> ->], (QS q Q) as [-> ->]. ring. }
  assert (SA : first_at e r = sum_over l (sqdiff (i_vals f))) by exact A1.
  replace (first_at e1 r / safe (norm_at e1 r) + first_at e2 r / safe (norm_at e2 r) - (1 + 1) * (first_at e3 r / safe (norm_at e3 r)))%Qc with (first_at e r / safe (norm_at e r))%Qc.
  2:{ rewrite B3, C3, D3, A3, SE. unfold Qcdiv. ring. }
  unfold root. set (q := (_ / _)%Qc). assert (Q : (0 <= q)%Qc).
  { unfold q. apply div_nonneg; [apply safe_gt|]. rewrite SA. apply sum_nonneg. intros. apply Qc_sq_nonneg. }
  destruct (Qclt_b q 0) eqn:L; auto. apply Qclt_b_iff in L. exfalso. apply (Qclt_not_le _ _ L). auto.
Qed.

Lemma Qc_ratio_pos : forall a n : Qc, (0 < n)%Qc -> (0 < a / n)%Qc -> (0 < a)%Qc.
Proof.
  intros a n Hn H. assert (E : (a = (a / n) * n)%Qc) by (field; intro E; subst n; exact (Qclt_not_eq _ _ Hn eq_refl)).
  rewrite E. rewrite <- (Qcmult_0_l n). apply Qcmult_lt_compat_r; auto.
Qed.

Lemma W2_by_S2 : forall asrt per var roi shape w f m, shapes per roi shape -> is_image shape w -> is_image shape f -> mask_of shape m ->
  let masks := Some (zeros shape, mask1 w m) in
  exists e e1 e2, fresh asrt roi per var (CallW2 w f m) = Ok e /\ fresh asrt roi per var (CallS2 w f masks) = Ok e1 /\
    fresh asrt roi per var (CallS2 w (each (fun _ => 1%Qc) w) masks) = Ok e2 /\
    forall r, pixel roi r -> exists a b c, result_at e r = Exact a /\ result_at e1 r = Exact b /\ result_at e2 r = Exact c /\
      ((0 < c)%Qc -> a = (b / c)%Qc).
Proof.
  intros asrt per var roi shape w f m HS Hw Hf HM masks.
  assert (M : is_mask shape (mask1 w m)) by (apply mask1_ok; auto; apply HS).
  assert (M2 : masks_of shape masks) by (split; auto; apply zeros_mask; apply HS).
  destruct (W2_any asrt per var roi shape w f m HS Hw Hf HM) as (e & E & S & V).
  destruct (S2_any asrt per var roi shape w f _ HS Hw Hf M2) as (e1 & E1 & S1 & V1).
  destruct (S2_any asrt per var roi shape w (each (fun _ => 1%Qc) w) _ HS Hw (each_image _ _ _ _ _ Hw) M2) as (e2 & E2 & S2 & V2).
  exists e, e1, e2. split; auto. split; auto. split; auto. intros r Hr.
  destruct (V r Hr) as (A1 & A2 & A3 & A4). destruct (V1 r Hr) as (B1 & B2 & B3 & B4). destruct (V2 r Hr) as (C1 & C2 & C3 & C4). cbv zeta in *.
  unfold masks in *. cbn [mask2 fst snd] in *.
  assert (EL : filter (seen shape (i_vals (zeros shape)) (i_vals (mask1 w m)) (offset roi r)) (pairs per shape (offset roi r)) =
               filter (seen shape [] (i_vals (mask1 w m)) (offset roi r)) (pairs per shape (offset roi r))).
  { apply filter_ext_in'. intros [p q] _. unfold seen. cbn [fst snd zeros i_vals]. rewrite zn_repeat0, zn_nil. reflexivity. }
  rewrite EL in *. set (l := filter _ (pairs per shape (offset roi r))) in *.
  eexists _, _, _. split; [exact A4|]. split; [exact B4|]. split; [exact C4|]. intro H.
  assert (X : first_at e2 r = norm_at e r).
  { rewrite C1, A3. apply sum_ext. intros [p q] HI. unfold l in HI. apply seen_In in HI. destruct HI as (P & Q & _). cbn [fst snd].
    unfold each. cbn [i_vals]. rewrite (each_qn _ 0%Qc) by (destruct Hw as [_ ->]; exact Q). ring. }
  assert (Y : first_at e1 r = first_at e r) by congruence.
  assert (Z1 : norm_at e2 r = norm_at e1 r) by congruence.
  rewrite X, Z1 in *. rewrite Y. assert (G := safe_gt (norm_at e1 r)). assert (P := Qc_ratio_pos _ _ G H).
  rewrite (safe_pos (norm_at e r) P). field. split; apply not_eq_sym, Qclt_not_eq; assumption.
Qed.
