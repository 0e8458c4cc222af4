(** * EnsembleW2c: proofs of C41 and C42, the collapsed correlation *)

From Coq Require Import ZArith QArith Qcanon List Bool Lia.
From Verif Require Import Base BaseLemmas SpecCluster ClusterGeom Array3 Array3Lemmas Path SpecPath PathTop SpecDilate DilateTop Ensemble SpecEnsemble
  EnsembleSums EnsembleLin EnsembleWindow EnsembleTop EnsembleAdd EnsembleRun EnsembleL.
Import ListNotations.
Open Scope Z_scope.

Section W2c.
Variables (asrt per var : bool) (roi shape : list Z) (n0 n1 n2 k0 k1 k2 : Z).
Hypothesis HD : dims3 per roi shape n0 n1 n2 k0 k1 k2.
Hypothesis HC : k2 = 1 \/ (k1 - 1) / 2 = (k2 - 1) / 2.
Notation N := (n0 * n1 * n2).
Notation K := (k0 * k1 * k2).
Notation R3 := ([k0; k1; k2]).
Notation S3 := ([n0; n1; n2]).
Let Pn : 1 <= n0 /\ 1 <= n1 /\ 1 <= n2 := D_pn _ _ _ _ _ _ _ _ _ HD.
Let Pk : 1 <= k0 < 2 ^ 62 /\ 1 <= k1 < 2 ^ 62 /\ 1 <= k2 < 2 ^ 62 := D_pk _ _ _ _ _ _ _ _ _ HD.
Notation p0 := ((k0 - 1) / 2).
Notation p1 := ((k1 - 1) / 2).
Notation p2 := ((k2 - 1) / 2).
Notation L2 := (lin vec2 (ix2 k0 k1 k2) (dims2 k0 k1 k2) (dims2 k0 k1 k2)).

Lemma soff_off2 : forall r, 0 <= r < K -> soff k0 k1 k2 (p0 + of0 k0 k1 k2 r) (p1 + of1 k1 k2 r) (p1 + of2 k2 r) = r.
Proof.
  intros r Hr. etransitivity; [|apply (soff_off _ _ _ _ _ _ _ _ _ HD r Hr)]. unfold soff. destruct HC as [E|E].
  - replace (k2 =? 1) with true by (symmetry; apply Z.eqb_eq; auto). ring.
  - rewrite E. reflexivity.
Qed.

Lemma value_eq : forall f p r, 0 <= p < N -> 0 <= r < K -> value_at per S3 f p (offset R3 r) = shows n0 n1 n2 k0 k1 k2 per 0%Qc f p r.
Proof.
  intros f p r Hp Hr. unfold value_at, shows.
  assert (HM : forall q, 0 <= q < N -> movedb per S3 (coords S3 p) (offset R3 r) (coords S3 q) = true <-> part n0 n1 n2 k0 k1 k2 per p r = Some q).
  { intros q Hq. apply part_movedb; auto. }
  assert (ZP : zprod S3 = N) by (cbn [zprod]; lia). unfold pixels. rewrite ZP, sum_filter.
  destruct (part n0 n1 n2 k0 k1 k2 per p r) as [q|] eqn:EP.
  - assert (Hq : 0 <= q < N) by (unfold part in EP; eapply partner_range; [exact Pn|exact EP]).
    apply (sum_single (zrange 0 N) (fun q => movedb per S3 (coords S3 p) (offset R3 r) (coords S3 q)) (qn f) q).
    + apply zrange_NoDup.
    + apply zrange_In. auto.
    + intros x IN. apply zrange_In in IN. rewrite HM by auto. split; [intros E; inversion E; auto|intros ->; auto].
  - apply sum_none. intros x IN. apply zrange_In in IN. apply not_true_is_false. intros B. apply HM in B; auto. discriminate.
Qed.

(** What a pair of consecutive offsets adds. *)
Definition adds (f : list Qc) (fm : list Z) (p : Z) (ab : list Z * list Z) (i : bool * Z) : Qc :=
  if same_offset (offset R3 (snd i)) (fst ab) && negb (in_phase per S3 fm p (snd ab))
  then (if fst i then value_at per S3 f p (snd ab) else 1%Qc) else 0%Qc.

Lemma same_eqb : forall r0 r, 0 <= r0 < K -> 0 <= r < K -> same_offset (offset R3 r) (offset R3 r0) = (r0 =? r).
Proof.
  intros r0 r H0 Hr. destruct (Z.eqb_spec r0 r) as [<-|NE]; [apply same_offset_iff; auto|]. apply not_true_is_false. intros X. apply same_offset_iff in X.
  apply (offset_inj _ _ _ _ _ _ _ _ _ HD) in X; auto.
Qed.

Lemma incr2_ok : forall a b c v w, 0 <= soff k0 k1 k2 a b c < K ->
  L2 (fun fn : arr Qc * arr Qc => n <- incr (snd fn) a b c v ;; f <- incr (fst fn) a b c w ;; Ok (f, n))
     (Ok (fun i : bool * Z => if soff k0 k1 k2 a b c =? snd i then (if fst i then w else v) else 0%Qc)).
Proof.
  intros a b c v w H [f n] [Df Dn]. cbn [fst snd] in *. destruct (lin_incr_ok k0 k1 k2 a b c v H n Dn) as (n' & En & Dn' & Vn).
  destruct (lin_incr_ok k0 k1 k2 a b c w H f Df) as (f' & Ef & Df' & Vf). exists (f', n'). rewrite En, bind_Ok, Ef, bind_Ok.
  split; auto. split; [split; auto|]. intros [[] r] Hr; unfold vec2; cbn [fst snd]; auto.
Qed.

Lemma walk_from : forall f F fm Fm (C : arr Z) cl label p all, padded n0 n1 n2 k0 k1 k2 per 0%Qc f F -> padded n0 n1 n2 k0 k1 k2 per 0 fm Fm ->
  padded n0 n1 n2 k0 k1 k2 per 0 cl C -> 0 <= p < N -> (forall d, In d all -> in_roi k0 k1 k2 d) ->
  forall rest pre prev, all = pre ++ prev :: rest ->
  L2 (fun fn => W2c_walk (PW k0 k1 k2) C Fm F label (wpos n1 n2 k0 k1 k2 p) all rest (lenZ pre) fn)
     (Ok (fun i => sum_over (combine (prev :: rest) rest) (fun ab => adds f fm p ab i))).
Proof.
  intros f F fm Fm C cl label p all HF HM HL Hp HA. induction rest as [|d rest IH]; intros pre prev EA.
  - cbn [W2c_walk]. eapply lin_out; [|apply lin_ret]. intros i _. reflexivity.
  - assert (INd : In d all) by (rewrite EA; apply in_or_app; right; right; left; auto).
    assert (INp : In prev all) by (rewrite EA; apply in_or_app; right; left; auto).
    destruct (HA d INd) as (r0 & Hr0 & Ed). destruct (HA prev INp) as (r1 & Hr1 & Ep).
    pose proof (padded_at _ _ _ _ _ _ _ _ _ HD _ _ _ _ _ p r0 HF Hp Hr0) as AF. pose proof (padded_at _ _ _ _ _ _ _ _ _ HD _ _ _ _ _ p r0 HM Hp Hr0) as AM.
    pose proof (padded_at _ _ _ _ _ _ _ _ _ HD _ _ _ _ _ p r0 HL Hp Hr0) as AC. unfold wpos in *.
    assert (VP : vget all (lenZ pre) = Ok prev).
    { rewrite EA. unfold vget, lenZ. destruct (Z.ltb_spec (Z.of_nat (length pre)) 0); [lia|]. rewrite Nat2Z.id, nth_error_app2, Nat.sub_diag by lia. reflexivity. }
    pose proof (off3 _ _ _ _ _ _ _ _ _ HD r0 Hr0) as E0. pose proof (off3 _ _ _ _ _ _ _ _ _ HD r1 Hr1) as E1.
    set (m := shows n0 n1 n2 k0 k1 k2 per 0 fm p r0) in *. set (v := shows n0 n1 n2 k0 k1 k2 per 0%Qc f p r0) in *.
    eapply lin_ext with (pt' := fun fn => fn' <- (if m =? 0 then
        n <- incr (snd fn) (p0 + of0 k0 k1 k2 r1) (p1 + of1 k1 k2 r1) (p1 + of2 k2 r1) 1%Qc ;;
        f' <- incr (fst fn) (p0 + of0 k0 k1 k2 r1) (p1 + of1 k1 k2 r1) (p1 + of2 k2 r1) v ;; Ok (f', n) else Ok fn) ;;
      W2c_walk (PW k0 k1 k2) C Fm F label (wpos n1 n2 k0 k1 k2 p) all rest (lenZ (pre ++ [prev])) fn').
    { intros fn _. rewrite Ed, E0. cbn [W2c_walk]. unfold PW, wpos. rewrite AC. cbn [bind]. cbv zeta.
      replace (lenZ pre <? 0) with false by (symmetry; apply Z.ltb_ge; apply lenZ_nonneg). rewrite andb_false_r.
      replace (0 <=? lenZ pre) with true by (symmetry; apply Z.leb_le; apply lenZ_nonneg). rewrite AM. cbn [bind]. fold m.
      replace (lenZ (pre ++ [prev])) with (lenZ pre + 1) by (unfold lenZ; rewrite app_length; cbn [length]; lia).
      destruct (m =? 0); [|reflexivity]. rewrite VP, Ep, E1. cbn [bind]. fold v.
      destruct (incr (snd fn) _ _ _ _) as [n| | |]; cbn [bind]; auto. rewrite AF. cbn [bind]. reflexivity. }
    eapply lin_out; [|eapply lin_seq_ok with (D1 := fun i => adds f fm p (prev, d) i); [|apply (IH (pre ++ [prev]) d); rewrite <- app_assoc; exact EA]].
    { intros i _. reflexivity. }
    assert (PH : in_phase per S3 fm p d = negb (m =? 0)) by (rewrite Ed; apply (phase_eq _ _ _ _ _ _ _ _ _ HD); auto).
    assert (VE : value_at per S3 f p d = v) by (rewrite Ed; apply value_eq; auto).
    destruct (m =? 0) eqn:EM.
    + eapply lin_out; [|apply incr2_ok; rewrite soff_off2; auto]. intros [b r] Hr. unfold ix2 in Hr. cbn [snd fst] in *. rewrite soff_off2 by auto.
      unfold adds. cbn [fst snd]. rewrite Ep, same_eqb by auto. rewrite PH, VE. cbn [negb]. rewrite andb_true_r. reflexivity.
    + eapply lin_out; [|apply lin_ret]. intros [b r] Hr. unfold adds. cbn [fst snd]. rewrite PH. cbn [negb]. rewrite andb_false_r. reflexivity.
Qed.

Lemma point_lin : forall f F fm Fm C cl Ce ce p rows, padded n0 n1 n2 k0 k1 k2 per 0%Qc f F -> padded n0 n1 n2 k0 k1 k2 per 0 fm Fm ->
  padded n0 n1 n2 k0 k1 k2 per 0 cl C -> padded n0 n1 n2 k0 k1 k2 per 0 ce Ce -> 0 <= p < N -> hd_error rows = Some [0; 0; 0] ->
  (forall d, In d rows -> in_roi k0 k1 k2 d) ->
  L2 (fun fn => W2c_point (PW k0 k1 k2) C Ce Fm F rows fn (wpos n1 n2 k0 k1 k2 p))
     (Ok (fun i => if cluster_centre cl ce p then sum_over (combine rows (tl rows)) (fun ab => adds f fm p ab i) else 0%Qc)).
Proof.
  intros f F fm Fm C cl Ce ce p rows HF HM HL HE Hp H0 HA. destruct rows as [|z rows]; [discriminate|]. cbn in H0. inversion H0; subst z. clear H0.
  pose proof HE as (_ & _ & _ & _ & HE'). destruct (HE' p Hp) as (AE & _). pose proof HL as (_ & _ & _ & _ & HL'). destruct (HL' p Hp) as (AL & _).
  unfold cluster_centre, zn. eapply lin_ext with (pt' := fun fn => if nth (Z.to_nat p) ce 0 =? 0 then Ok fn else if negb (nth (Z.to_nat p) cl 0 =? nth (Z.to_nat p) ce 0) then Ok fn else
    W2c_walk (PW k0 k1 k2) C Fm F (nth (Z.to_nat p) ce 0) (wpos n1 n2 k0 k1 k2 p) ([0; 0; 0] :: rows) ([0; 0; 0] :: rows) (-1) fn).
  { intros fn _. unfold W2c_point. rewrite AE, bind_Ok, AL, bind_Ok. reflexivity. }
  destruct (nth (Z.to_nat p) ce 0 =? 0) eqn:EZ; cbn [negb andb]; [apply lin_ret|].
  destruct (nth (Z.to_nat p) cl 0 =? nth (Z.to_nat p) ce 0) eqn:EQ; cbn [negb]; [|apply lin_ret].
  set (label := nth (Z.to_nat p) ce 0) in *. cbn [tl].
  eapply lin_ext; [|apply (walk_from f F fm Fm C cl label p ([0; 0; 0] :: rows) HF HM HL Hp HA rows [] [0; 0; 0] eq_refl)].
  intros fn _. unfold wpos, PW. cbn [W2c_walk]. unfold wpos, aget3 in AL. rewrite !Z.add_0_r, AL. cbn [bind]. cbv zeta. rewrite EQ. cbn [negb andb].
  change (0 <=? -1) with false. cbv iota. cbn [bind]. change (-1 + 1) with 0. reflexivity.
Qed.

Definition tot (cl ce : list Z) (f : list Qc) (fm : list Z) (rows : list (list Z)) (i : bool * Z) : Qc :=
  sum_over (filter (cluster_centre cl ce) (zrange 0 N)) (fun p => sum_over (combine rows (tl rows)) (fun ab => adds f fm p ab i)).

Lemma W2c_stamp_lin : forall s f F fm Fm C cl Ce ce mode r rows, padded n0 n1 n2 k0 k1 k2 per 0%Qc f F -> padded n0 n1 n2 k0 k1 k2 per 0 fm Fm ->
  padded n0 n1 n2 k0 k1 k2 per 0 cl C -> padded n0 n1 n2 k0 k1 k2 per 0 ce Ce -> 0 <= r < K -> good_path k0 k1 k2 mode (offset R3 r) rows ->
  lin vecE (ixE k0 k1 k2) (okS s per var roi k0 k1 k2) (okS s per var roi k0 k1 k2) (fun e => W2c_stamp (PW k0 k1 k2) C Ce Fm F mode e (offset R3 r))
    (Ok (fun i => match fst i with
       | C_first => tot cl ce f fm rows (true, snd i) | C_second => 0%Qc | C_norm => tot cl ce f fm rows (false, snd i) end)).
Proof.
  intros s f F fm Fm C cl Ce ce mode r rows HF HM HL HE Hr HG. destruct (good_rows _ _ _ _ _ _ _ _ _ HD mode r rows Hr HG) as (_ & HB). destruct HG as (EP & H0 & _).
  eapply lin_ext with (pt' := fun e => fn <- foldM (W2c_point (PW k0 k1 k2) C Ce Fm F rows) (positions (PW k0 k1 k2) F) (e_first e, e_norm e) ;; Ok (set_data e (fst fn) (e_second e) (snd fn))).
  { intros e [HO _]. unfold W2c_stamp. rewrite (fuel_eq per var roi k0 k1 k2 e HO), EP. reflexivity. }
  rewrite (padded_pos n0 n1 n2 k0 k1 k2 Pn _ _ _ _ _ HF).
  apply (lift2_ok per var roi k0 k1 k2 s (fun fn => foldM (W2c_point (PW k0 k1 k2) C Ce Fm F rows) (map (wpos n1 n2 k0 k1 k2) (zrange 0 N)) fn) (tot cl ce f fm rows)).
  assert (E : forall e, foldM (W2c_point (PW k0 k1 k2) C Ce Fm F rows) (map (wpos n1 n2 k0 k1 k2) (zrange 0 N)) e =
    foldM (fun fn p => W2c_point (PW k0 k1 k2) C Ce Fm F rows fn (wpos n1 n2 k0 k1 k2 p)) (zrange 0 N) e).
  { generalize (zrange 0 N). induction l as [|x l IH]; intros e; [reflexivity|]. cbn [map foldM]. destruct (W2c_point _ _ _ _ _ _ _ _); cbn [bind]; auto. }
  eapply lin_ext; [intros a _; apply E|].
  eapply lin_out; [|apply (lin_fold_ok vec2 (ix2 k0 k1 k2) _ (fun fn p => W2c_point (PW k0 k1 k2) C Ce Fm F rows fn (wpos n1 n2 k0 k1 k2 p))
    (fun p i => if cluster_centre cl ce p then sum_over (combine rows (tl rows)) (fun ab => adds f fm p ab i) else 0%Qc))].
  - intros i _. unfold tot. rewrite sum_filter. reflexivity.
  - intros p IN. apply zrange_In in IN. apply (point_lin f F fm Fm C cl Ce ce); auto.
Qed.

Lemma W2c_lin : forall cl ce f fm mode, is_image shape cl -> is_image shape ce -> is_image shape f -> is_mask shape fm ->
  (forall x, In x (edge R3) -> good_path k0 k1 k2 mode x (path_for k0 k1 k2 mode x)) ->
  lin vecE (ixE k0 k1 k2) (before asrt S_W2c per var roi k0 k1 k2) (okS S_W2c per var roi k0 k1 k2) (fun e => add asrt e (CallW2c cl ce f (Some fm) mode))
    (Ok (fun i => sum_over (edge R3) (fun x => match fst i with
       | C_first => tot (i_vals cl) (i_vals ce) (i_vals f) (i_vals fm) (path_for k0 k1 k2 mode x) (true, snd i)
       | C_second => 0%Qc
       | C_norm => tot (i_vals cl) (i_vals ce) (i_vals f) (i_vals fm) (path_for k0 k1 k2 mode x) (false, snd i) end))).
Proof.
  intros cl ce f fm mode Hcl Hce Hf Hfm HG.
  destruct (pad_mode_ok per n0 n1 n2 k0 k1 k2 Pn Pk (D_fit _ _ _ _ _ _ _ _ _ HD) Qc 0%Qc (i_vals f)) as (F & EF & PF).
  destruct (pad_mode_ok per n0 n1 n2 k0 k1 k2 Pn Pk (D_fit _ _ _ _ _ _ _ _ _ HD) Z 0 (i_vals fm)) as (Fm & EM & PM).
  destruct (pad_mode_ok per n0 n1 n2 k0 k1 k2 Pn Pk (D_fit _ _ _ _ _ _ _ _ _ HD) Z 0 (i_vals cl)) as (C & EC & PC).
  destruct (pad_mode_ok per n0 n1 n2 k0 k1 k2 Pn Pk (D_fit _ _ _ _ _ _ _ _ _ HD) Z 0 (i_vals ce)) as (Ce & EE & PE).
  destruct Hfm as [Hfm Bfm]. destruct Hcl as [Scl _]. destruct Hce as [Sce _]. destruct Hf as [Sf _]. destruct Hfm as [Sfm _].
  eapply lin_ext with (pt' := fun e => foldM (W2c_stamp (PW k0 k1 k2) C Ce Fm F mode) (edge R3) (set_stat e S_W2c)).
  { intros e HB. pose proof HB as [HO _]. cbn [add mask1]. unfold W2c. rewrite (before_assert _ _ _ _ _ _ _ _ _ HB), (ok_roi _ _ _ _ _ _ _ HO).
    rewrite (roi_ok_ok per var roi k0 k1 k2 e HO) by lia.
    rewrite (ok_pad _ _ _ _ _ _ _ HO), (ok_per _ _ _ _ _ _ _ HO), (pad_PW k0 k1 k2 Pk).
    rewrite (to3_ok _ f n0 n1 n2), (to3_ok _ fm n0 n1 n2), (to3_ok _ cl n0 n1 n2), (to3_ok _ ce n0 n1 n2) by (rewrite ?Sf, ?Sfm, ?Scl, ?Sce; apply HD).
    rewrite Sf, Sfm, Scl, Sce, (D_len _ _ _ _ _ _ _ _ _ HD), Nat.eqb_refl, shape_eqb_refl, (assert_true asrt true eq_refl), (assert_true asrt (binary fm)) by (apply binary_ok; auto).
    rewrite !bind_Ok, EF, bind_Ok, EM, bind_Ok, EC, bind_Ok, EE, bind_Ok.
    destruct HO as [_ _ _ (A0 & A1 & A2 & _) _ _]. rewrite A0, A1, A2, (stamps_edge _ _ _ _ _ _ _ _ _ HD). reflexivity. }
  apply (lin_start asrt S_W2c per var roi k0 k1 k2 (fun e => foldM (W2c_stamp (PW k0 k1 k2) C Ce Fm F mode) (edge R3) e)).
  apply (lin_fold_ok vecE (ixE k0 k1 k2) _ (W2c_stamp (PW k0 k1 k2) C Ce Fm F mode)
    (fun x i => match fst i with
       | C_first => tot (i_vals cl) (i_vals ce) (i_vals f) (i_vals fm) (path_for k0 k1 k2 mode x) (true, snd i)
       | C_second => 0%Qc
       | C_norm => tot (i_vals cl) (i_vals ce) (i_vals f) (i_vals fm) (path_for k0 k1 k2 mode x) (false, snd i) end)).
  intros x IN. pose proof (HG x IN) as HX. destruct (edge_In k0 k1 k2 x IN) as (r & Hr & ->). apply W2c_stamp_lin; auto.
Qed.
End W2c.

Lemma tot_counted : forall per n0 n1 n2 k0 k1 k2 (shape : list Z) cl ce f fm r (b : bool) paths, zprod shape = n0 * n1 * n2 ->
  sum_over paths (fun rows => tot per n0 n1 n2 k0 k1 k2 cl ce f fm rows (b, r)) =
  sum_over (filter (fun w : list Z * list Z * Z => same_offset (offset [k0; k1; k2] r) (fst (fst w)) && negb (in_phase per [n0; n1; n2] fm (snd w) (snd (fst w))))
              (list_prod (steps paths) (filter (cluster_centre cl ce) (pixels shape))))
    (fun w => if b then value_at per [n0; n1; n2] f (snd w) (snd (fst w)) else 1%Qc).
Proof.
  intros per n0 n1 n2 k0 k1 k2 shape cl ce f fm r b paths ZP. rewrite sum_filter, sum_prod. unfold steps, pixels. rewrite ZP. induction paths as [|rows paths IH]; [reflexivity|].
  rewrite sum_cons, IH. cbn [flat_map]. rewrite sum_app. f_equal. unfold tot. rewrite sum_swap. apply sum_ext. intros ab _. apply sum_ext. intros p _. reflexivity.
Qed.

Section Top.
Variables (asrt per var : bool) (roi shape : list Z) (mode : path_mode).
Hypothesis HS : shapes per roi shape.
Hypothesis HW : walkable mode roi.
Hypothesis HE : even_sided roi.

Lemma W2c_exact : exists paths, paths_of mode (three roi) paths /\
  forall cl ce f fm, is_image shape cl -> is_image shape ce -> is_image shape f -> is_mask shape fm ->
  exists e, fresh asrt roi per var (CallW2c cl ce f (Some fm) mode) = Ok e /\ roi_shaped roi e /\
    forall r, pixel roi r -> let l := counted per roi shape (i_vals cl) (i_vals ce) (i_vals fm) paths r in
      first_at e r = sum_over l (fun w => value_at per (three shape) (i_vals f) (snd w) (snd (fst w))) /\
      norm_at e r = zq (lenZ l) /\
      result_at e r = Exact (quotient (first_at e r) (norm_at e r)).
Proof.
  destruct (shapes_dims3 _ _ _ HS) as (n0 & n1 & n2 & k0 & k1 & k2 & HD). pose proof (paths_exist _ _ _ _ _ _ _ _ _ mode HD HW) as HG.
  exists (map (path_for k0 k1 k2 mode) (edge [k0; k1; k2])). unfold counted.
  rewrite (three_eq roi k0 k1 k2) by apply HD. rewrite (three_eq shape n0 n1 n2) by apply HD. split.
  { unfold paths_of. clear -HG. induction (edge [k0; k1; k2]) as [|x l IH]; cbn [map]; constructor; [|apply IH; intros; apply HG; right; auto].
    destruct (HG x (or_introl eq_refl)) as [G1 G2]. split; auto. eexists. exact G1. }
  intros cl ce f fm Hcl Hce Hf Hfm.
  assert (HC : k2 = 1 \/ (k1 - 1) / 2 = (k2 - 1) / 2).
  { pose proof (D_k _ _ _ _ _ _ _ _ _ HD) as EK. destruct roi as [|a [|b [|c [|d s]]]]; cbn [shape3] in EK; inversion EK; subst; auto. }
  destruct (fresh_lin asrt per var roi shape n0 n1 n2 k0 k1 k2 S_W2c (CallW2c cl ce f (Some fm) mode) _ HD
     (W2c_lin asrt per var roi shape n0 n1 n2 k0 k1 k2 HD HC cl ce f fm mode Hcl Hce Hf Hfm HG)) as (e & E & O & SH & V).
  exists e. split; auto. split; auto. intros r Hr. destruct (V r Hr) as (Hr' & V1 & _ & V3). cbn [fst snd] in V1, V3. cbv zeta.
  assert (ZP : zprod shape = n0 * n1 * n2) by (apply shape3_prod; apply HD).
  rewrite <- (sum_map _ _ (path_for k0 k1 k2 mode) (edge [k0; k1; k2]) (fun rows => tot per n0 n1 n2 k0 k1 k2 (i_vals cl) (i_vals ce) (i_vals f) (i_vals fm) rows (true, r))) in V1.
  rewrite <- (sum_map _ _ (path_for k0 k1 k2 mode) (edge [k0; k1; k2]) (fun rows => tot per n0 n1 n2 k0 k1 k2 (i_vals cl) (i_vals ce) (i_vals f) (i_vals fm) rows (false, r))) in V3.
  rewrite (tot_counted _ _ _ _ _ _ _ _ _ _ _ _ _ _ _ ZP) in V1. rewrite (tot_counted _ _ _ _ _ _ _ _ _ _ _ _ _ _ _ ZP), sum_one in V3.
  split; [exact V1|]. split; [exact V3|]. rewrite (result_at_eq S_W2c per var roi k0 k1 k2 e r O Hr'). cbv zeta. rewrite V3. f_equal. apply safe_count; [apply lenZ_nonneg|].
  intros Z0. rewrite V1. apply sum_count. exact Z0.
Qed.
End Top.

Lemma W2c_extent_ignored : forall asrt per var roi shape mode cl cl' ce f fm, shapes per roi shape -> walkable mode roi -> even_sided roi ->
  is_image shape cl -> is_image shape cl' -> is_image shape ce -> is_image shape f -> is_mask shape fm ->
  (forall p, pixel shape p -> cluster_centre (i_vals cl) (i_vals ce) p = cluster_centre (i_vals cl') (i_vals ce) p) ->
  exists e e', fresh asrt roi per var (CallW2c cl ce f (Some fm) mode) = Ok e /\
    fresh asrt roi per var (CallW2c cl' ce f (Some fm) mode) = Ok e' /\
    forall r, pixel roi r -> first_at e r = first_at e' r /\ norm_at e r = norm_at e' r /\ result_at e r = result_at e' r.
Proof.
  intros asrt per var roi shape mode cl cl' ce f fm HS HW HE Hcl Hcl' Hce Hf Hfm HC.
  destruct (W2c_exact asrt per var roi shape mode HS HW HE) as (paths & _ & H).
  destruct (H cl ce f fm Hcl Hce Hf Hfm) as (e & E & _ & V). destruct (H cl' ce f fm Hcl' Hce Hf Hfm) as (e' & E' & _ & V').
  exists e, e'. split; auto. split; auto. intros r Hr. destruct (V r Hr) as (V1 & V2 & V3). destruct (V' r Hr) as (V1' & V2' & V3').
  assert (EC : counted per roi shape (i_vals cl) (i_vals ce) (i_vals fm) paths r = counted per roi shape (i_vals cl') (i_vals ce) (i_vals fm) paths r).
  { unfold counted. rewrite (filter_ext_in' _ (cluster_centre (i_vals cl) (i_vals ce)) (cluster_centre (i_vals cl') (i_vals ce))); auto.
    intros p IN. unfold pixels in IN. apply zrange_In in IN. apply HC. auto. }
  rewrite EC in V1, V2. assert (F1 : first_at e r = first_at e' r) by congruence. assert (F2 : norm_at e r = norm_at e' r) by congruence.
  split; auto. split; auto. rewrite V3, V3', F1, F2. reflexivity.
Qed.

Lemma W2c_inside : forall asrt per var roi shape mode cl ce f fm, shapes per roi shape -> walkable mode roi -> even_sided roi ->
  is_image shape cl -> is_image shape ce -> is_image shape f -> is_mask shape fm ->
  exists e, fresh asrt roi per var (CallW2c cl ce f (Some fm) mode) = Ok e /\ roi_shaped roi e.
Proof.
  intros asrt per var roi shape mode cl ce f fm HS HW HE Hcl Hce Hf Hfm. destruct (W2c_exact asrt per var roi shape mode HS HW HE) as (paths & _ & H).
  destruct (H cl ce f fm Hcl Hce Hf Hfm) as (e & E & SH & _). exists e. auto.
Qed.
