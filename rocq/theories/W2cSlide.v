(** * W2cSlide: proofs of C137, [W2c] for every region of interest *)

From Coq Require Import ZArith QArith Qcanon List Bool Lia.
From Verif Require Import Base BaseLemmas SpecCluster ClusterGeom Array3 Array3Lemmas Path SpecPath PathTop SpecDilate DilateTop Ensemble SpecEnsemble
  EnsembleSums EnsembleLin EnsembleWindow EnsembleTop EnsembleAdd EnsembleRun EnsembleL EnsembleW2c SpecW2cSlide.
Import ListNotations.
Open Scope Z_scope.

(** ** Steps that succeed or leave the array *)

Section B.
Context {S I : Type} (vec : S -> I -> Qc) (ix : I -> Prop).
Definition either (b : bool) (D : I -> Qc) : res (I -> Qc) := if b then Ok D else UB.

Lemma seq_either : forall pre mid post f g b1 b2 D1 D2, lin vec ix pre mid f (either b1 D1) -> lin vec ix mid post g (either b2 D2) ->
  lin vec ix pre post (fun s => bind (f s) g) (either (b1 && b2) (fun i => D1 i + D2 i)%Qc).
Proof.
  intros pre mid post f g b1 b2 D1 D2 Hf Hg. destruct b1; cbn [andb either].
  - destruct b2; [eapply lin_seq_ok; eauto|]. intros s Hs. destruct (Hf s Hs) as (s1 & E1 & O1 & _). rewrite E1. exact (Hg s1 O1).
  - intros s Hs. rewrite (Hf s Hs). reflexivity.
Qed.

Lemma fold_either : forall A (pt : S -> A -> res S) (b : A -> bool) (D : A -> I -> Qc) pre l,
  (forall x, In x l -> lin vec ix pre pre (fun s => pt s x) (either (b x) (D x))) ->
  lin vec ix pre pre (fun s => foldM pt l s) (either (forallb b l) (fun i => sum_over l (fun x => D x i))).
Proof.
  intros A pt b D pre. induction l as [|x l IH]; intros H.
  - apply lin_ret.
  - cbn [foldM forallb]. apply (seq_either pre pre pre (fun s => pt s x) (fun s => foldM pt l s) (b x) (forallb b l) (D x)).
    + apply H. simpl; auto.
    + apply IH. intros; apply H; simpl; auto.
Qed.

Lemma out_either : forall pre post pt b b' D D', b = b' -> (forall i, ix i -> D i = D' i) ->
  lin vec ix pre post pt (either b D) -> lin vec ix pre post pt (either b' D').
Proof. intros pre post pt b b' D D' <- E H. destruct b; [eapply lin_out; eauto|exact H]. Qed.
End B.

Section W2c.
Variables (asrt per var : bool) (roi shape : list Z) (n0 n1 n2 k0 k1 k2 : Z).
Hypothesis HD : dims3 per roi shape n0 n1 n2 k0 k1 k2.
Notation N := (n0 * n1 * n2).
Notation K := (k0 * k1 * k2).
Notation R3 := ([k0; k1; k2]).
Notation S3 := ([n0; n1; n2]).
Let Pn : 1 <= n0 /\ 1 <= n1 /\ 1 <= n2 := D_pn _ _ _ _ _ _ _ _ _ HD.
Let Pk : 1 <= k0 < 2 ^ 62 /\ 1 <= k1 < 2 ^ 62 /\ 1 <= k2 < 2 ^ 62 := D_pk _ _ _ _ _ _ _ _ _ HD.
Notation p0 := ((k0 - 1) / 2).
Notation p1 := ((k1 - 1) / 2).
Notation p2 := ((k2 - 1) / 2).
Notation L2 := (lin vec2 (ix2 k0 k1 k2) (dims2 k0 k1 k2) (dims2 k0 k1 k2)).
Notation sh := (slide R3).

Lemma soff_slide : forall r, 0 <= r < K -> soff k0 k1 k2 (p0 + of0 k0 k1 k2 r) (p1 + of1 k1 k2 r) (p1 + of2 k2 r) = r + sh.
Proof.
  intros r Hr. pose proof (soff_off _ _ _ _ _ _ _ _ _ HD r Hr) as E.
  unfold soff, slide in *. destruct (k2 =? 1); lia.
Qed.

(** Where a value for the offset [d] is written. *)
Definition target (d : list Z) : Z :=
  match d with [a; b; c] => soff k0 k1 k2 (p0 + a) (p1 + b) (p1 + c) | _ => 0 end.
Definition fits (t : Z) : bool := (0 <=? t) && (t <? K).
Definition safe (fm : list Z) (p : Z) (ab : list Z * list Z) : bool := in_phase per S3 fm p (snd ab) || fits (target (fst ab)).

Definition adds (f : list Qc) (fm : list Z) (p : Z) (ab : list Z * list Z) (i : bool * Z) : Qc :=
  if (target (fst ab) =? snd i) && negb (in_phase per S3 fm p (snd ab))
  then (if fst i then value_at per S3 f p (snd ab) else 1%Qc) else 0%Qc.

Lemma target_offset : forall r, 0 <= r < K -> target (offset R3 r) = r + sh.
Proof. intros r Hr. rewrite (off3 _ _ _ _ _ _ _ _ _ HD r Hr). apply soff_slide; auto. Qed.

Lemma incr_out : forall a b c v m, dims k0 k1 k2 m -> ~ 0 <= soff k0 k1 k2 a b c < K -> incr m a b c v = UB.
Proof.
  intros a b c v m HM HO. unfold incr. cbv zeta. rewrite (soff_eq k0 k1 k2) by auto. destruct HM as (E0 & E1 & E2 & L). rewrite vget_oob by lia. reflexivity.
Qed.

Lemma incr2_either : forall a b c v w,
  L2 (fun fn : arr Qc * arr Qc => n <- incr (snd fn) a b c v ;; f <- incr (fst fn) a b c w ;; Ok (f, n))
     (either (fits (soff k0 k1 k2 a b c)) (fun i : bool * Z => if soff k0 k1 k2 a b c =? snd i then (if fst i then w else v) else 0%Qc)).
Proof.
  intros a b c v w. unfold fits. destruct ((0 <=? soff k0 k1 k2 a b c) && (soff k0 k1 k2 a b c <? K)) eqn:E; cbn [either].
  - apply (incr2_ok k0 k1 k2). lia.
  - intros [f n] [Df Dn]. cbn [fst snd] in *. rewrite incr_out by (auto; lia). reflexivity.
Qed.

Lemma walk_from : forall f F fm Fm (C : arr Z) cl label p all, padded n0 n1 n2 k0 k1 k2 per 0%Qc f F -> padded n0 n1 n2 k0 k1 k2 per 0 fm Fm ->
  padded n0 n1 n2 k0 k1 k2 per 0 cl C -> 0 <= p < N -> (forall d, In d all -> in_roi k0 k1 k2 d) ->
  forall rest pre prev, all = pre ++ prev :: rest ->
  L2 (fun fn => W2c_walk (PW k0 k1 k2) C Fm F label (wpos n1 n2 k0 k1 k2 p) all rest (lenZ pre) fn)
     (either (forallb (safe fm p) (combine (prev :: rest) rest)) (fun i => sum_over (combine (prev :: rest) rest) (fun ab => adds f fm p ab i))).
Proof.
  intros f F fm Fm C cl label p all HF HM HL Hp HA. induction rest as [|d rest IH]; intros pre prev EA.
  - cbn [W2c_walk]. cbn [combine forallb either]. eapply lin_out; [|apply lin_ret]. intros i _. reflexivity.
  - assert (INd : In d all) by (rewrite EA; apply in_or_app; right; right; left; auto).
    assert (INp : In prev all) by (rewrite EA; apply in_or_app; right; left; auto).
    destruct (HA d INd) as (r0 & Hr0 & Ed). destruct (HA prev INp) as (r1 & Hr1 & Ep).
    pose proof (padded_at _ _ _ _ _ _ _ _ _ HD _ _ _ _ _ p r0 HF Hp Hr0) as AF. pose proof (padded_at _ _ _ _ _ _ _ _ _ HD _ _ _ _ _ p r0 HM Hp Hr0) as AM.
    pose proof (padded_at _ _ _ _ _ _ _ _ _ HD _ _ _ _ _ p r0 HL Hp Hr0) as AC. unfold wpos in *.
    assert (VP : vget all (lenZ pre) = Ok prev).
    { rewrite EA. unfold vget, lenZ. destruct (Z.ltb_spec (Z.of_nat (length pre)) 0); [lia|]. rewrite Nat2Z.id, nth_error_app2, Nat.sub_diag by lia. reflexivity. }
    pose proof (off3 _ _ _ _ _ _ _ _ _ HD r0 Hr0) as E0. pose proof (off3 _ _ _ _ _ _ _ _ _ HD r1 Hr1) as E1.
    set (m := shows n0 n1 n2 k0 k1 k2 per 0 fm p r0) in *. set (v := shows n0 n1 n2 k0 k1 k2 per 0%Qc f p r0) in *.
    eapply lin_ext with (pt' := fun fn => fn' <- (if m =? 0 then
        n <- incr (snd fn) (p0 + of0 k0 k1 k2 r1) (p1 + of1 k1 k2 r1) (p1 + of2 k2 r1) 1%Qc ;;
        f' <- incr (fst fn) (p0 + of0 k0 k1 k2 r1) (p1 + of1 k1 k2 r1) (p1 + of2 k2 r1) v ;; Ok (f', n) else Ok fn) ;;
      W2c_walk (PW k0 k1 k2) C Fm F label (wpos n1 n2 k0 k1 k2 p) all rest (lenZ (pre ++ [prev])) fn').
    { intros fn _. rewrite Ed, E0. cbn [W2c_walk]. unfold PW, wpos. rewrite AC. cbn [bind]. cbv zeta.
      replace (lenZ pre <? 0) with false by (symmetry; apply Z.ltb_ge; apply lenZ_nonneg). rewrite andb_false_r.
      replace (0 <=? lenZ pre) with true by (symmetry; apply Z.leb_le; apply lenZ_nonneg). rewrite AM. cbn [bind]. fold m.
      replace (lenZ (pre ++ [prev])) with (lenZ pre + 1) by (unfold lenZ; rewrite app_length; cbn [length]; lia).
      destruct (m =? 0); [|reflexivity]. rewrite VP, Ep, E1. cbn [bind]. fold v.
      destruct (incr (snd fn) _ _ _ _) as [n| | |]; cbn [bind]; auto. rewrite AF. cbn [bind]. reflexivity. }
    assert (PH : in_phase per S3 fm p d = negb (m =? 0)) by (rewrite Ed; apply (phase_eq _ _ _ _ _ _ _ _ _ HD); auto).
    assert (VE : value_at per S3 f p d = v) by (rewrite Ed; apply (value_eq _ _ _ _ _ _ _ _ _ HD); auto).
    assert (TE : target prev = soff k0 k1 k2 (p0 + of0 k0 k1 k2 r1) (p1 + of1 k1 k2 r1) (p1 + of2 k2 r1)) by (rewrite Ep, E1; reflexivity).
    change (combine (prev :: d :: rest) (d :: rest)) with ((prev, d) :: combine (d :: rest) rest). cbn [forallb].
    apply (seq_either vec2 (ix2 k0 k1 k2) _ (dims2 k0 k1 k2) _ (fun fn => if m =? 0 then
        n <- incr (snd fn) (p0 + of0 k0 k1 k2 r1) (p1 + of1 k1 k2 r1) (p1 + of2 k2 r1) 1%Qc ;;
        f' <- incr (fst fn) (p0 + of0 k0 k1 k2 r1) (p1 + of1 k1 k2 r1) (p1 + of2 k2 r1) v ;; Ok (f', n) else Ok fn)
      (W2c_walk (PW k0 k1 k2) C Fm F label (wpos n1 n2 k0 k1 k2 p) all rest (lenZ (pre ++ [prev])))
      (safe fm p (prev, d)) _ (fun i => adds f fm p (prev, d) i)).
    + unfold safe, adds. cbn [fst snd]. rewrite PH, TE. destruct (m =? 0) eqn:EM; cbn [negb orb].
      * eapply out_either; [reflexivity| |apply incr2_either]. intros [b r] Hr. cbn [fst snd]. rewrite andb_true_r, VE. reflexivity.
      * cbn [either]. eapply lin_out; [|apply lin_ret]. intros [b r] Hr. rewrite andb_false_r. reflexivity.
    + apply (IH (pre ++ [prev]) d). rewrite <- app_assoc. exact EA.
Qed.

(** What a centre adds, and whether all its writes fall inside. *)
Definition adds_at (cl ce : list Z) f fm rows p i : Qc := if cluster_centre cl ce p then sum_over (combine rows (tl rows)) (fun ab => adds f fm p ab i) else 0%Qc.
Definition safe_at (cl ce : list Z) fm rows p : bool := negb (cluster_centre cl ce p) || forallb (safe fm p) (combine rows (tl rows)).

Lemma point_either : forall f F fm Fm C cl Ce ce p rows, padded n0 n1 n2 k0 k1 k2 per 0%Qc f F -> padded n0 n1 n2 k0 k1 k2 per 0 fm Fm ->
  padded n0 n1 n2 k0 k1 k2 per 0 cl C -> padded n0 n1 n2 k0 k1 k2 per 0 ce Ce -> 0 <= p < N -> hd_error rows = Some [0; 0; 0] ->
  (forall d, In d rows -> in_roi k0 k1 k2 d) ->
  L2 (fun fn => W2c_point (PW k0 k1 k2) C Ce Fm F rows fn (wpos n1 n2 k0 k1 k2 p))
     (either (safe_at cl ce fm rows p) (adds_at cl ce f fm rows p)).
Proof.
  intros f F fm Fm C cl Ce ce p rows HF HM HL HE Hp H0 HA. destruct rows as [|z rows]; [discriminate|]. cbn in H0. inversion H0; subst z. clear H0.
  pose proof HE as (_ & _ & _ & _ & HE'). destruct (HE' p Hp) as (AE & _). pose proof HL as (_ & _ & _ & _ & HL'). destruct (HL' p Hp) as (AL & _).
  unfold safe_at, adds_at, cluster_centre, zn. eapply lin_ext with (pt' := fun fn => if nth (Z.to_nat p) ce 0 =? 0 then Ok fn else if negb (nth (Z.to_nat p) cl 0 =? nth (Z.to_nat p) ce 0) then Ok fn else
    W2c_walk (PW k0 k1 k2) C Fm F (nth (Z.to_nat p) ce 0) (wpos n1 n2 k0 k1 k2 p) ([0; 0; 0] :: rows) ([0; 0; 0] :: rows) (-1) fn).
  { intros fn _. unfold W2c_point. rewrite AE, bind_Ok, AL, bind_Ok. reflexivity. }
  destruct (nth (Z.to_nat p) ce 0 =? 0) eqn:EZ; cbn [negb andb orb either]; [apply lin_ret|].
  destruct (nth (Z.to_nat p) cl 0 =? nth (Z.to_nat p) ce 0) eqn:EQ; cbn [negb orb either]; [|apply lin_ret].
  set (label := nth (Z.to_nat p) ce 0) in *. cbn [tl].
  eapply lin_ext; [|apply (walk_from f F fm Fm C cl label p ([0; 0; 0] :: rows) HF HM HL Hp HA rows [] [0; 0; 0] eq_refl)].
  intros fn _. unfold wpos, PW. cbn [W2c_walk]. unfold wpos, aget3 in AL. rewrite !Z.add_0_r, AL. cbn [bind]. cbv zeta. rewrite EQ. cbn [negb andb].
  change (0 <=? -1) with false. cbv iota. cbn [bind]. change (-1 + 1) with 0. reflexivity.
Qed.

Definition tot (cl ce : list Z) (f : list Qc) (fm : list Z) (rows : list (list Z)) (i : bool * Z) : Qc :=
  sum_over (filter (cluster_centre cl ce) (zrange 0 N)) (fun p => sum_over (combine rows (tl rows)) (fun ab => adds f fm p ab i)).
Definition comps (T : bool * Z -> Qc) (i : comp * Z) : Qc :=
  match fst i with C_first => T (true, snd i) | C_second => 0%Qc | C_norm => T (false, snd i) end.
Definition all_safe (cl ce fm : list Z) rows : bool := forallb (safe_at cl ce fm rows) (zrange 0 N).

Lemma lift2_either : forall s f b D, L2 f (either b D) ->
  lin vecE (ixE k0 k1 k2) (okS s per var roi k0 k1 k2) (okS s per var roi k0 k1 k2)
    (fun e => fn <- f (e_first e, e_norm e) ;; Ok (set_data e (fst fn) (e_second e) (snd fn))) (either b (comps D)).
Proof.
  intros s f b D Hf. destruct b; cbn [either] in *; [apply (lift2_ok per var roi k0 k1 k2 s f D Hf)|].
  intros e HO. pose proof HO as [[_ _ _ D1 D2 D3] _]. rewrite (Hf (e_first e, e_norm e) (conj D1 D3)). reflexivity.
Qed.

Lemma stamp_either : forall s f F fm Fm C cl Ce ce mode r rows, padded n0 n1 n2 k0 k1 k2 per 0%Qc f F -> padded n0 n1 n2 k0 k1 k2 per 0 fm Fm ->
  padded n0 n1 n2 k0 k1 k2 per 0 cl C -> padded n0 n1 n2 k0 k1 k2 per 0 ce Ce -> 0 <= r < K -> good_path k0 k1 k2 mode (offset R3 r) rows ->
  lin vecE (ixE k0 k1 k2) (okS s per var roi k0 k1 k2) (okS s per var roi k0 k1 k2) (fun e => W2c_stamp (PW k0 k1 k2) C Ce Fm F mode e (offset R3 r))
    (either (all_safe cl ce fm rows) (comps (tot cl ce f fm rows))).
Proof.
  intros s f F fm Fm C cl Ce ce mode r rows HF HM HL HE Hr HG. destruct (good_rows _ _ _ _ _ _ _ _ _ HD mode r rows Hr HG) as (_ & HB). destruct HG as (EP & H0 & _).
  eapply lin_ext with (pt' := fun e => fn <- foldM (W2c_point (PW k0 k1 k2) C Ce Fm F rows) (positions (PW k0 k1 k2) F) (e_first e, e_norm e) ;; Ok (set_data e (fst fn) (e_second e) (snd fn))).
  { intros e [HO _]. unfold W2c_stamp. rewrite (fuel_eq per var roi k0 k1 k2 e HO), EP. reflexivity. }
  rewrite (padded_pos n0 n1 n2 k0 k1 k2 Pn _ _ _ _ _ HF).
  apply (lift2_either s (fun fn => foldM (W2c_point (PW k0 k1 k2) C Ce Fm F rows) (map (wpos n1 n2 k0 k1 k2) (zrange 0 N)) fn)).
  assert (E : forall e, foldM (W2c_point (PW k0 k1 k2) C Ce Fm F rows) (map (wpos n1 n2 k0 k1 k2) (zrange 0 N)) e =
    foldM (fun fn p => W2c_point (PW k0 k1 k2) C Ce Fm F rows fn (wpos n1 n2 k0 k1 k2 p)) (zrange 0 N) e).
  { generalize (zrange 0 N). induction l as [|x l IH]; intros e; [reflexivity|]. cbn [map foldM]. destruct (W2c_point _ _ _ _ _ _ _ _); cbn [bind]; auto. }
  eapply lin_ext; [intros a _; apply E|].
  eapply out_either; [reflexivity| |apply (fold_either vec2 (ix2 k0 k1 k2) _ (fun fn p => W2c_point (PW k0 k1 k2) C Ce Fm F rows fn (wpos n1 n2 k0 k1 k2 p))
    (safe_at cl ce fm rows) (adds_at cl ce f fm rows))].
  - intros i _. unfold tot. rewrite sum_filter. reflexivity.
  - intros p IN. apply zrange_In in IN. apply (point_either f F fm Fm C cl Ce ce); auto.
Qed.

Lemma start_either : forall s pt b D,
  lin vecE (ixE k0 k1 k2) (okS s per var roi k0 k1 k2) (okS s per var roi k0 k1 k2) pt (either b D) ->
  lin vecE (ixE k0 k1 k2) (before asrt s per var roi k0 k1 k2) (okS s per var roi k0 k1 k2) (fun e => pt (set_stat e s)) (either b D).
Proof.
  intros s pt b D H. destruct b; [apply lin_start; exact H|]. intros e [HO _]. exact (H (set_stat e s) (ok_set_stat _ _ _ _ _ _ _ _ HO)).
Qed.

Lemma W2c_either : forall cl ce f fm mode, is_image shape cl -> is_image shape ce -> is_image shape f -> is_mask shape fm ->
  (forall x, In x (edge R3) -> good_path k0 k1 k2 mode x (path_for k0 k1 k2 mode x)) ->
  lin vecE (ixE k0 k1 k2) (before asrt S_W2c per var roi k0 k1 k2) (okS S_W2c per var roi k0 k1 k2) (fun e => add asrt e (CallW2c cl ce f (Some fm) mode))
    (either (forallb (fun x => all_safe (i_vals cl) (i_vals ce) (i_vals fm) (path_for k0 k1 k2 mode x)) (edge R3))
       (fun i => sum_over (edge R3) (fun x => comps (tot (i_vals cl) (i_vals ce) (i_vals f) (i_vals fm) (path_for k0 k1 k2 mode x)) i))).
Proof.
  intros cl ce f fm mode Hcl Hce Hf Hfm HG.
  destruct (pad_mode_ok per n0 n1 n2 k0 k1 k2 Pn Pk (D_fit _ _ _ _ _ _ _ _ _ HD) Qc 0%Qc (i_vals f)) as (F & EF & PF).
  destruct (pad_mode_ok per n0 n1 n2 k0 k1 k2 Pn Pk (D_fit _ _ _ _ _ _ _ _ _ HD) Z 0 (i_vals fm)) as (Fm & EM & PM).
  destruct (pad_mode_ok per n0 n1 n2 k0 k1 k2 Pn Pk (D_fit _ _ _ _ _ _ _ _ _ HD) Z 0 (i_vals cl)) as (C & EC & PC).
  destruct (pad_mode_ok per n0 n1 n2 k0 k1 k2 Pn Pk (D_fit _ _ _ _ _ _ _ _ _ HD) Z 0 (i_vals ce)) as (Ce & EE & PE).
  destruct Hfm as [Hfm Bfm]. destruct Hcl as [Scl _]. destruct Hce as [Sce _]. destruct Hf as [Sf _]. destruct Hfm as [Sfm _].
  eapply lin_ext with (pt' := fun e => foldM (W2c_stamp (PW k0 k1 k2) C Ce Fm F mode) (edge R3) (set_stat e S_W2c)).
  { intros e HB. pose proof HB as [HO _]. cbn [add mask1]. unfold W2c. rewrite (before_assert _ _ _ _ _ _ _ _ _ HB), (ok_roi _ _ _ _ _ _ _ HO).
    rewrite (roi_ok_ok per var roi k0 k1 k2 e HO) by lia.
    rewrite (ok_pad _ _ _ _ _ _ _ HO), (ok_per _ _ _ _ _ _ _ HO), (pad_PW k0 k1 k2 Pk).
    rewrite (to3_ok _ f n0 n1 n2), (to3_ok _ fm n0 n1 n2), (to3_ok _ cl n0 n1 n2), (to3_ok _ ce n0 n1 n2) by (rewrite ?Sf, ?Sfm, ?Scl, ?Sce; apply HD).
    rewrite Sf, Sfm, Scl, Sce, (D_len _ _ _ _ _ _ _ _ _ HD), Nat.eqb_refl, shape_eqb_refl, (assert_true asrt true eq_refl), (assert_true asrt (binary fm)) by (apply binary_ok; auto).
    rewrite !bind_Ok, EF, bind_Ok, EM, bind_Ok, EC, bind_Ok, EE, bind_Ok.
    destruct HO as [_ _ _ (A0 & A1 & A2 & _) _ _]. rewrite A0, A1, A2, (stamps_edge _ _ _ _ _ _ _ _ _ HD). reflexivity. }
  apply (start_either S_W2c (fun e => foldM (W2c_stamp (PW k0 k1 k2) C Ce Fm F mode) (edge R3) e)).
  apply (fold_either vecE (ixE k0 k1 k2) _ (W2c_stamp (PW k0 k1 k2) C Ce Fm F mode)
    (fun x => all_safe (i_vals cl) (i_vals ce) (i_vals fm) (path_for k0 k1 k2 mode x))
    (fun x i => comps (tot (i_vals cl) (i_vals ce) (i_vals f) (i_vals fm) (path_for k0 k1 k2 mode x)) i)).
  intros x IN. pose proof (HG x IN) as HX. destruct (edge_In k0 k1 k2 x IN) as (r & Hr & ->). apply stamp_either; auto.
Qed.
End W2c.

Section Top.
Variables (asrt per var : bool) (roi shape : list Z) (n0 n1 n2 k0 k1 k2 : Z).
Hypothesis HD : dims3 per roi shape n0 n1 n2 k0 k1 k2.
Notation N := (n0 * n1 * n2).
Notation K := (k0 * k1 * k2).
Notation R3 := ([k0; k1; k2]).
Notation sh := (slide R3).

Lemma slide3 : slide roi = sh.
Proof.
  pose proof (D_k _ _ _ _ _ _ _ _ _ HD) as EK. destruct roi as [|a [|b [|c [|d s]]]]; cbn [shape3] in EK; inversion EK; subst; reflexivity.
Qed.

(** A step whose first offset belongs to the region of interest. *)
Lemma adds_slid : forall f fm p ab b t, in_roi k0 k1 k2 (fst ab) -> 0 <= t - sh < K ->
  adds per n0 n1 n2 k0 k1 k2 f fm p ab (b, t) = EnsembleW2c.adds per n0 n1 n2 k0 k1 k2 f fm p ab (b, t - sh).
Proof.
  intros f fm p [from to] b t (r1 & Hr1 & E) Ht. cbn [fst] in E. unfold adds, EnsembleW2c.adds. cbn [fst snd]. rewrite E at 1 2.
  rewrite (target_offset per roi shape n0 n1 n2 k0 k1 k2 HD r1 Hr1), (same_eqb per roi shape n0 n1 n2 k0 k1 k2 HD r1 (t - sh) Hr1 Ht).
  replace (r1 + sh =? t) with (r1 =? t - sh); [reflexivity|]. destruct (Z.eqb_spec r1 (t - sh)); destruct (Z.eqb_spec (r1 + sh) t); lia.
Qed.

Lemma adds_none : forall f fm p ab b t, in_roi k0 k1 k2 (fst ab) -> ~ 0 <= t - sh < K ->
  adds per n0 n1 n2 k0 k1 k2 f fm p ab (b, t) = 0%Qc.
Proof.
  intros f fm p [from to] b t (r1 & Hr1 & E) Ht. cbn [fst] in E. unfold adds. cbn [fst snd]. rewrite E at 1.
  rewrite (target_offset per roi shape n0 n1 n2 k0 k1 k2 HD r1 Hr1). destruct (Z.eqb_spec (r1 + sh) t); [lia|]. reflexivity.
Qed.

Lemma combine_fst_In : forall (A : Type) (l l' : list A) ab, In ab (combine l l') -> In (fst ab) l.
Proof. intros A l l' [a b] H. apply in_combine_l in H. exact H. Qed.

Lemma tot_slid : forall cl ce f fm rows b t, (forall d, In d rows -> in_roi k0 k1 k2 d) ->
  tot per n0 n1 n2 k0 k1 k2 cl ce f fm rows (b, t) =
  if fits k0 k1 k2 (t - sh) then EnsembleW2c.tot per n0 n1 n2 k0 k1 k2 cl ce f fm rows (b, t - sh) else 0%Qc.
Proof.
  intros cl ce f fm rows b t HB. unfold fits, tot, EnsembleW2c.tot. destruct ((0 <=? t - sh) && (t - sh <? K)) eqn:E.
  - apply sum_ext. intros p _. apply sum_ext. intros ab IN. apply adds_slid; [apply HB; eapply combine_fst_In; eauto|lia].
  - etransitivity; [apply (sum_ext _ _ _ (fun _ => 0%Qc))|].
    + intros p _. etransitivity; [apply (sum_ext _ _ _ (fun _ => 0%Qc))|].
      * intros ab IN. apply adds_none; [apply HB; eapply combine_fst_In; eauto|lia].
      * generalize (combine rows (tl rows)). induction l as [|x l IH]; [reflexivity|]. rewrite sum_cons, IH. ring.
    + generalize (filter (cluster_centre cl ce) (zrange 0 N)). induction l as [|x l IH]; [reflexivity|]. rewrite sum_cons, IH. ring.
Qed.
End Top.

Lemma neq_nil_In : forall (A : Type) (l : list A), l <> [] <-> exists x, In x l.
Proof. intros A [|x l]; split; [congruence|intros (x & [])|intros _; exists x; left; auto|discriminate]. Qed.

Lemma forallb_false_In : forall (A : Type) (b : A -> bool) l x, In x l -> b x = false -> forallb b l = false.
Proof.
  intros A b l x IN H. destruct (forallb b l) eqn:E; auto. rewrite forallb_forall in E. rewrite E in H; auto.
Qed.

Lemma steps_In : forall paths ab, In ab (steps paths) <-> exists rows, In rows paths /\ In ab (combine rows (tl rows)).
Proof. intros. unfold steps. apply in_flat_map. Qed.

(** The paths; they depend on the region of interest and the mode only. *)
Definition roi_paths (mode : path_mode) (roi : list Z) : list (list (list Z)) :=
  match three roi with
  | [k0; k1; k2] => map (path_for k0 k1 k2 mode) (edge [k0; k1; k2])
  | _ => []
  end.

Lemma W2c_slides_by : forall asrt per var roi shape mode, shapes per roi shape -> walkable mode roi ->
  let paths := roi_paths mode roi in paths_of mode (three roi) paths /\
  forall cl ce f fm, is_image shape cl -> is_image shape ce -> is_image shape f -> is_mask shape fm ->
  let due := counted per roi shape (i_vals cl) (i_vals ce) (i_vals fm) paths in
  let call := fresh asrt roi per var (CallW2c cl ce f (Some fm) mode) in
  ((exists r, pixel roi r /\ due r <> [] /\ ~ pixel roi (r + slide roi)) -> call = UB) /\
  ((forall r, pixel roi r -> due r <> [] -> pixel roi (r + slide roi)) ->
   exists e, call = Ok e /\ roi_shaped roi e /\
   (forall r, pixel roi r -> pixel roi (r + slide roi) ->
      first_at e (r + slide roi) = sum_over (due r) (fun w => value_at per (three shape) (i_vals f) (snd w) (snd (fst w))) /\
      norm_at e (r + slide roi) = zq (lenZ (due r))) /\
   (forall t, pixel roi t -> ~ pixel roi (t - slide roi) -> first_at e t = 0%Qc /\ norm_at e t = 0%Qc) /\
   (forall t, pixel roi t -> result_at e t = Exact (quotient (first_at e t) (norm_at e t)))).
Proof.
  intros asrt per var roi shape mode HS HW.
  destruct (shapes_dims3 _ _ _ HS) as (n0 & n1 & n2 & k0 & k1 & k2 & HD). pose proof (paths_exist _ _ _ _ _ _ _ _ _ mode HD HW) as HG.
  intros paths. assert (EP : paths = map (path_for k0 k1 k2 mode) (edge [k0; k1; k2])) by (unfold paths, roi_paths; rewrite (three_eq roi k0 k1 k2) by apply HD; reflexivity).
  rewrite EP; clearbody paths; subst paths. rewrite (slide3 per roi shape n0 n1 n2 k0 k1 k2 HD).
  set (sh := slide [k0; k1; k2]). set (K := k0 * k1 * k2). assert (ZP : zprod shape = n0 * n1 * n2) by (apply shape3_prod; apply HD).
  assert (PIX : forall r, pixel roi r <-> 0 <= r < K) by (intros r; unfold pixel; rewrite (shape3_prod roi k0 k1 k2) by apply HD; reflexivity).
  assert (RI : forall x, In x (edge [k0; k1; k2]) -> forall d, In d (path_for k0 k1 k2 mode x) -> in_roi k0 k1 k2 d).
  { intros x IN. pose proof (HG x IN) as HX. destruct (edge_In k0 k1 k2 x IN) as (r & Hr & Ex). rewrite Ex in HX at 1.
    apply (good_rows _ _ _ _ _ _ _ _ _ HD mode r (path_for k0 k1 k2 mode x) Hr HX). }
  split.
  { unfold paths_of. rewrite (three_eq roi k0 k1 k2) by apply HD. clear -HG. induction (edge [k0; k1; k2]) as [|x l IH]; cbn [map]; constructor; [|apply IH; intros; apply HG; right; auto].
    destruct (HG x (or_introl eq_refl)) as [G1 G2]. split; auto. eexists. exact G1. }
  intros cl ce f fm Hcl Hce Hf Hfm due call.
  pose proof (W2c_either asrt per var roi shape n0 n1 n2 k0 k1 k2 HD cl ce f fm mode Hcl Hce Hf Hfm HG) as HL.
  set (ok := forallb _ _) in HL.
  assert (DUE : forall r ab p, In (ab, p) (due r) <-> (exists x, In x (edge [k0; k1; k2]) /\ In ab (combine (path_for k0 k1 k2 mode x) (tl (path_for k0 k1 k2 mode x)))) /\
     0 <= p < n0 * n1 * n2 /\ cluster_centre (i_vals cl) (i_vals ce) p = true /\ fst ab = offset [k0; k1; k2] r /\ in_phase per [n0; n1; n2] (i_vals fm) p (snd ab) = false).
  { intros r ab p. unfold due, counted. rewrite (three_eq roi k0 k1 k2) by apply HD. rewrite (three_eq shape n0 n1 n2) by apply HD.
    rewrite filter_In, in_prod_iff, steps_In, filter_In. cbn [fst snd]. unfold pixels. rewrite ZP, zrange_In, andb_true_iff, negb_true_iff, same_offset_iff. split.
    - intros (((rows & IN & IC) & (Hp & HC)) & E & PH). apply in_map_iff in IN. destruct IN as (x & <- & IN). split; [exists x; auto|]. split; auto.
    - intros ((x & IN & IC) & Hp & HC & E & PH). split; [split|]; auto. exists (path_for k0 k1 k2 mode x). split; auto. apply in_map. auto. }
  assert (BAD : (exists r, pixel roi r /\ due r <> [] /\ ~ pixel roi (r + sh)) -> ok = false).
  { intros (r & Hr & ND & NP). apply neq_nil_In in ND. destruct ND as ([ab p] & IN). apply DUE in IN. destruct IN as ((x & IN & IC) & Hp & HC & E & PH).
    unfold ok. apply (forallb_false_In _ _ _ x IN). unfold all_safe. apply (forallb_false_In _ _ _ p); [apply zrange_In; auto|].
    unfold safe_at. rewrite HC. cbn [negb orb]. apply (forallb_false_In _ _ _ ab IC). unfold safe. rewrite PH. cbn [orb].
    rewrite E, (target_offset per roi shape n0 n1 n2 k0 k1 k2 HD) by (apply PIX; auto). unfold fits. rewrite PIX in NP. fold sh K. lia. }
  assert (GOOD : (forall r, pixel roi r -> due r <> [] -> pixel roi (r + sh)) -> ok = true).
  { intros H. unfold ok. apply forallb_forall. intros x IN. unfold all_safe. apply forallb_forall. intros p Hp. apply zrange_In in Hp. unfold safe_at.
    destruct (cluster_centre (i_vals cl) (i_vals ce) p) eqn:HC; cbn [negb orb]; auto. apply forallb_forall. intros ab IC. unfold safe.
    destruct (in_phase per [n0; n1; n2] (i_vals fm) p (snd ab)) eqn:PH; cbn [orb]; auto.
    destruct (RI x IN (fst ab)) as (r & Hr & E); [eapply combine_fst_In; eauto|]. rewrite E, (target_offset per roi shape n0 n1 n2 k0 k1 k2 HD) by auto.
    assert (P : pixel roi (r + sh)). { apply H; [apply PIX; auto|]. apply neq_nil_In. exists (ab, p). apply DUE. split; [exists x; auto|]. auto. }
    apply PIX in P. unfold fits. fold sh K. lia. }
  split.
  - intros HB. rewrite (BAD HB) in HL. cbn [either] in HL. unfold call, fresh. destruct HD as [HL1 H3 HN HK PN PK HF].
    destruct (ensemble_ok asrt roi per var k0 k1 k2) as (e0 & E0 & O0 & V0); auto; try lia. rewrite E0, bind_Ok. apply HL.
    destruct O0 as [O0 S0]. split; auto. intros _. unfold unlocked. rewrite S0, orb_true_r. reflexivity.
  - intros H. rewrite (GOOD H) in HL. cbn [either] in HL. clear BAD GOOD.
    destruct (fresh_lin asrt per var roi shape n0 n1 n2 k0 k1 k2 S_W2c (CallW2c cl ce f (Some fm) mode) _ HD HL) as (e & E & O & SH & V).
    exists e. split; auto. split; auto.
    assert (TOT : forall b t, sum_over (edge [k0; k1; k2]) (fun x => tot per n0 n1 n2 k0 k1 k2 (i_vals cl) (i_vals ce) (i_vals f) (i_vals fm) (path_for k0 k1 k2 mode x) (b, t)) =
      if fits k0 k1 k2 (t - sh) then sum_over (due (t - sh)) (fun w => if b then value_at per (three shape) (i_vals f) (snd w) (snd (fst w)) else 1%Qc) else 0%Qc).
    { intros b t. etransitivity; [apply sum_ext; intros x IN; apply (tot_slid per roi shape n0 n1 n2 k0 k1 k2 HD); apply RI; auto|]. fold sh. destruct (fits k0 k1 k2 (t - sh)).
      - rewrite <- (sum_map _ _ (path_for k0 k1 k2 mode) (edge [k0; k1; k2]) (fun rows => EnsembleW2c.tot per n0 n1 n2 k0 k1 k2 (i_vals cl) (i_vals ce) (i_vals f) (i_vals fm) rows (b, t - sh))).
        rewrite (tot_counted _ _ _ _ _ _ _ _ _ _ _ _ _ _ _ ZP). unfold due, counted. rewrite (three_eq roi k0 k1 k2) by apply HD. rewrite (three_eq shape n0 n1 n2) by apply HD. reflexivity.
      - generalize (edge [k0; k1; k2]). clear. induction l as [|x l IH]; [reflexivity|]. rewrite sum_cons, IH. ring. }
    assert (VAL : forall t, pixel roi t -> first_at e t = (if fits k0 k1 k2 (t - sh) then sum_over (due (t - sh)) (fun w => value_at per (three shape) (i_vals f) (snd w) (snd (fst w))) else 0%Qc) /\
       norm_at e t = (if fits k0 k1 k2 (t - sh) then zq (lenZ (due (t - sh))) else 0%Qc)).
    { intros t Ht. destruct (V t Ht) as (_ & V1 & _ & V3). unfold comps in V1, V3. cbn [fst snd] in V1, V3. rewrite V1, V3, !TOT. split; auto.
      destruct (fits k0 k1 k2 (t - sh)); auto. rewrite sum_one. reflexivity. }
    assert (FI : forall t, pixel roi t <-> fits k0 k1 k2 t = true) by (intros t; rewrite PIX; unfold fits, K; lia).
    split; [|split].
    + intros r Hr Ht. destruct (VAL _ Ht) as (V1 & V3). replace (r + sh - sh) with r in V1, V3 by lia. rewrite (proj1 (FI r) Hr) in V1, V3. auto.
    + intros t Ht NP. destruct (VAL _ Ht) as (V1 & V3). destruct (fits k0 k1 k2 (t - sh)) eqn:EF; [|auto]. exfalso. apply NP. apply FI. auto.
    + intros t Ht. destruct (VAL _ Ht) as (V1 & V3). assert (Ht' : 0 <= t < k0 * k1 * k2) by (apply PIX; auto).
      rewrite (result_at_eq S_W2c per var roi k0 k1 k2 e t O Ht'). cbv zeta. f_equal. rewrite V3. destruct (fits k0 k1 k2 (t - sh)).
      * apply safe_count; [apply lenZ_nonneg|]. intros Z0. rewrite V1. apply sum_count. exact Z0.
      * rewrite <- zq_0. apply safe_count; [lia|]. intros _. exact V1.
Qed.

Lemma W2c_slides : forall asrt per var roi shape mode, shapes per roi shape -> walkable mode roi ->
  exists paths, paths_of mode (three roi) paths /\
  forall cl ce f fm, is_image shape cl -> is_image shape ce -> is_image shape f -> is_mask shape fm ->
  let due := counted per roi shape (i_vals cl) (i_vals ce) (i_vals fm) paths in
  let call := fresh asrt roi per var (CallW2c cl ce f (Some fm) mode) in
  ((exists r, pixel roi r /\ due r <> [] /\ ~ pixel roi (r + slide roi)) -> call = UB) /\
  ((forall r, pixel roi r -> due r <> [] -> pixel roi (r + slide roi)) ->
   exists e, call = Ok e /\ roi_shaped roi e /\
   (forall r, pixel roi r -> pixel roi (r + slide roi) ->
      first_at e (r + slide roi) = sum_over (due r) (fun w => value_at per (three shape) (i_vals f) (snd w) (snd (fst w))) /\
      norm_at e (r + slide roi) = zq (lenZ (due r))) /\
   (forall t, pixel roi t -> ~ pixel roi (t - slide roi) -> first_at e t = 0%Qc /\ norm_at e t = 0%Qc) /\
   (forall t, pixel roi t -> result_at e t = Exact (quotient (first_at e t) (norm_at e t)))).
Proof.
  intros asrt per var roi shape mode HS HW. exists (roi_paths mode roi). exact (W2c_slides_by asrt per var roi shape mode HS HW).
Qed.

Lemma W2c_slides_all : forall roi mode, exists paths, forall asrt per var shape, shapes per roi shape -> walkable mode roi ->
  paths_of mode (three roi) paths /\
  forall cl ce f fm, is_image shape cl -> is_image shape ce -> is_image shape f -> is_mask shape fm ->
  let due := counted per roi shape (i_vals cl) (i_vals ce) (i_vals fm) paths in
  let call := fresh asrt roi per var (CallW2c cl ce f (Some fm) mode) in
  ((exists r, pixel roi r /\ due r <> [] /\ ~ pixel roi (r + slide roi)) -> call = UB) /\
  ((forall r, pixel roi r -> due r <> [] -> pixel roi (r + slide roi)) ->
   exists e, call = Ok e /\ roi_shaped roi e /\
   (forall r, pixel roi r -> pixel roi (r + slide roi) ->
      first_at e (r + slide roi) = sum_over (due r) (fun w => value_at per (three shape) (i_vals f) (snd w) (snd (fst w))) /\
      norm_at e (r + slide roi) = zq (lenZ (due r))) /\
   (forall t, pixel roi t -> ~ pixel roi (t - slide roi) -> first_at e t = 0%Qc /\ norm_at e t = 0%Qc) /\
   (forall t, pixel roi t -> result_at e t = Exact (quotient (first_at e t) (norm_at e t)))).
Proof. intros roi mode. exists (roi_paths mode roi). intros asrt per var shape HS HW. exact (W2c_slides_by asrt per var roi shape mode HS HW). Qed.
