(** * EnsembleL: proofs of C40, the lineal path function *)

From Coq Require Import ZArith QArith Qcanon List Bool Lia.
From Verif Require Import Base BaseLemmas SpecCluster ClusterGeom Array3 Array3Lemmas Path SpecPath PathTop SpecDilate DilateTop Ensemble SpecEnsemble
  EnsembleSums EnsembleLin EnsembleWindow EnsembleTop EnsembleAdd EnsembleRun.
Import ListNotations.
Open Scope Z_scope.

Lemma same_offset_iff : forall a b, same_offset a b = true <-> a = b.
Proof. intros a b. unfold same_offset. destruct (list_eq_dec Z.eq_dec a b); split; congruence. Qed.

Lemma three_eq : forall shape n0 n1 n2, shape3 shape = Ok (n0, n1, n2) -> three shape = [n0; n1; n2].
Proof. intros [|a [|b [|c [|d s]]]] n0 n1 n2 H; cbn in H; inversion H; reflexivity. Qed.

(** ** Paths stay in the box and do not return *)

(** Between 0 and the goal. *)
Definition between (g x : list Z) : Prop := Forall2 (fun a b => 0 <= b <= a \/ a <= b <= 0) g x.

Lemma closer_between : forall g x y, closer g x y -> between g x -> between g y.
Proof.
  unfold between. induction g as [|a g IH]; intros [|b x] [|c y] H HB; cbn in H; try contradiction; inversion HB; subst; constructor.
  - destruct H as [H _]. destruct H as [->|[N ->]]; auto. destruct (Z_lt_ge_dec b a); [rewrite Z.sgn_pos by lia|rewrite Z.sgn_neg by lia]; lia.
  - apply (IH x); auto. apply H.
Qed.

Lemma rows_between : forall g rows x, consecutive (some_closer g) (x :: rows) -> between g x -> forall r, In r (x :: rows) -> between g r.
Proof.
  intros g. induction rows as [|y rows IH]; intros x HC HB r [<-|Hr]; auto; [destruct Hr|].
  destruct HC as [[H1 _] HC]. apply (IH y); auto. eapply closer_between; eauto.
Qed.

Lemma closer_manhattan : forall g x y, closer g x y -> manhattan g y <= manhattan g x /\ (x <> y -> manhattan g y < manhattan g x).
Proof.
  induction g as [|a g IH]; intros [|b x] [|c y] H; cbn in H; try contradiction; cbn [manhattan].
  - split; [lia|congruence].
  - destruct H as [H1 H2]. destruct (IH _ _ H2) as [I1 I2].
    assert (A : Z.abs (c - a) <= Z.abs (b - a) /\ (b <> c -> Z.abs (c - a) < Z.abs (b - a))).
    { destruct H1 as [->|[N ->]]; [split; [lia|congruence]|]. destruct (Z_lt_ge_dec b a); [rewrite Z.sgn_pos by lia|rewrite Z.sgn_neg by lia]; lia. }
    split; [lia|]. intros N. destruct (Z.eq_dec b c) as [->|NB]; [|lia]. assert (x <> y) by congruence. specialize (I2 H). lia.
Qed.

Lemma rows_manhattan : forall g rows x, consecutive (some_closer g) (x :: rows) -> forall r, In r rows -> manhattan g r < manhattan g x.
Proof.
  intros g. induction rows as [|y rows IH]; intros x HC r Hr; [destruct Hr|]. destruct HC as [[H1 N] HC].
  destruct (closer_manhattan _ _ _ H1) as [_ H]. specialize (H N). destruct Hr as [<-|Hr]; auto. specialize (IH y HC r Hr). lia.
Qed.

Lemma consecutive_tl : forall R x rows, consecutive R (x :: rows) -> consecutive R rows.
Proof. intros R x [|y rows] H; [exact I|apply H]. Qed.

Lemma rows_NoDup : forall g rows, consecutive (some_closer g) rows -> NoDup rows.
Proof.
  intros g. induction rows as [|x rows IH]; intros HC; constructor.
  - intros IN. pose proof (rows_manhattan g rows x HC x IN). lia.
  - apply IH. eapply consecutive_tl; eauto.
Qed.

Lemma reaches_visits : forall good d rows, reaches good d rows = true -> visits d rows = true.
Proof.
  intros good d. unfold visits. induction rows as [|x rows IH]; intros H; [discriminate|]. cbn [reaches existsb] in *. apply andb_true_iff in H. destruct H as [_ H].
  apply orb_true_iff in H. apply orb_true_iff. destruct H; auto.
Qed.

Lemma filter_le : forall A (P Q : A -> bool) l, (forall x, P x = true -> Q x = true) -> lenZ (filter P l) <= lenZ (filter Q l).
Proof.
  intros A P Q l H. unfold lenZ. induction l as [|x l IH]; [reflexivity|]. cbn [filter]. destruct (P x) eqn:EP; [rewrite (H x EP); cbn [length]; lia|].
  destruct (Q x); cbn [length]; lia.
Qed.

Section L.
Variables (asrt per var : bool) (roi shape : list Z) (n0 n1 n2 k0 k1 k2 : Z).
Hypothesis HD : dims3 per roi shape n0 n1 n2 k0 k1 k2.
Notation N := (n0 * n1 * n2).
Notation K := (k0 * k1 * k2).
Notation R3 := ([k0; k1; k2]).
Notation S3 := ([n0; n1; n2]).
Let Pn : 1 <= n0 /\ 1 <= n1 /\ 1 <= n2 := D_pn _ _ _ _ _ _ _ _ _ HD.
Let Pk : 1 <= k0 < 2 ^ 62 /\ 1 <= k1 < 2 ^ 62 /\ 1 <= k2 < 2 ^ 62 := D_pk _ _ _ _ _ _ _ _ _ HD.
Notation p0 := ((k0 - 1) / 2).
Notation p1 := ((k1 - 1) / 2).
Notation p2 := ((k2 - 1) / 2).

Lemma off3 : forall r, 0 <= r < K -> offset R3 r = [of0 k0 k1 k2 r; of1 k1 k2 r; of2 k2 r].
Proof.
  intros r Hr. unfold offset, diff, anchor, of0, of1, of2. cbn [coords zprod map combine fst snd]. rewrite !Z.mul_1_r, !Z.div_1_r. f_equal; f_equal; [|f_equal]; f_equal.
  - rewrite (Z.mul_comm k1 k2), Z.rem_mul_r by lia. rewrite (Z.mul_comm k2 (r / k2 mod k1)), Z.div_add by lia.
    rewrite (Z.div_small (r mod k2)) by (apply Z.mod_pos_bound; lia). lia.
  - rewrite (Z.mul_comm k1 k2), Z.rem_mul_r by lia. rewrite (Z.mul_comm k2 (r / k2 mod k1)), Z.mod_add by lia. rewrite Z.mod_mod by lia. reflexivity.
Qed.

(** The roi element at an offset. *)
Definition at_off (d : list Z) : Z := match d with [a; b; c] => flat3 k1 k2 (p0 + a) (p1 + b) (p2 + c) | _ => 0 end.
Definition in_roi (d : list Z) : Prop := exists r, 0 <= r < K /\ d = offset R3 r.

Lemma at_off_offset : forall r, 0 <= r < K -> at_off (offset R3 r) = r.
Proof.
  intros r Hr. rewrite off3 by auto. unfold at_off, of0, of1, of2. destruct (flat3_encode k0 k1 k2 r) as (E & _); try lia. etransitivity; [|exact E].
  f_equal; lia.
Qed.

Lemma box_in_roi : forall a b c, - p0 <= a <= k0 / 2 -> - p1 <= b <= k1 / 2 -> - p2 <= c <= k2 / 2 -> in_roi [a; b; c].
Proof.
  intros a b c Ha Hb Hc. destruct (halves k0) as (?&?&?); [lia|]. destruct (halves k1) as (?&?&?); [lia|]. destruct (halves k2) as (?&?&?); [lia|].
  exists (flat3 k1 k2 (p0 + a) (p1 + b) (p2 + c)). assert (HR : 0 <= flat3 k1 k2 (p0 + a) (p1 + b) (p2 + c) < K) by (apply flat3_range; lia). split; auto.
  rewrite off3 by auto. destruct (flat3_decode k1 k2 (p0 + a) (p1 + b) (p2 + c)) as (A & B & C); try lia. unfold of0, of1, of2. rewrite A, B, C. f_equal; [lia|f_equal; [lia|f_equal; lia]].
Qed.

Lemma offset_box : forall r, 0 <= r < K -> exists a b c, offset R3 r = [a; b; c] /\ - p0 <= a <= k0 / 2 /\ - p1 <= b <= k1 / 2 /\ - p2 <= c <= k2 / 2.
Proof.
  intros r Hr. rewrite off3 by auto. do 3 eexists. split; [reflexivity|]. unfold of0, of1, of2.
  destruct (halves k0) as (?&?&?); [lia|]. destruct (halves k1) as (?&?&?); [lia|]. destruct (halves k2) as (?&?&?); [lia|].
  destruct (flat3_encode k0 k1 k2 r) as (_ & R0 & R1 & R2); lia.
Qed.

Lemma between_in_roi : forall r x, 0 <= r < K -> between (offset R3 r) x -> in_roi x.
Proof.
  intros r x Hr HB. destruct (offset_box r Hr) as (a & b & c & E & Ha & Hb & Hc). rewrite E in HB. unfold between in HB.
  destruct (halves k0) as (?&?&?); [lia|]. destruct (halves k1) as (?&?&?); [lia|]. destruct (halves k2) as (?&?&?); [lia|].
  inversion HB as [|? a' ? ? B0 HB1]; subst. inversion HB1 as [|? b' ? ? B1 HB2]; subst. inversion HB2 as [|? c' ? ? B2 HB3]; subst. inversion HB3; subst.
  apply box_in_roi; lia.
Qed.

(** What the padded image shows. *)
Lemma padded_at : forall A b (z : A) vals F p r, padded n0 n1 n2 k0 k1 k2 b z vals F -> 0 <= p < N -> 0 <= r < K ->
  let '(h, i, j) := wpos n1 n2 k0 k1 k2 p in
  aget F (h + of0 k0 k1 k2 r) (i + of1 k1 k2 r) (j + of2 k2 r) = Ok (shows n0 n1 n2 k0 k1 k2 b z vals p r).
Proof.
  intros A b z vals F p r (E0 & E1 & E2 & W & HP) Hp Hr. destruct (HP p Hp) as (_ & w & EW & VW). unfold wpos in *.
  destruct (halves k0) as (?&?&?); [lia|]. destruct (halves k1) as (?&?&?); [lia|]. destruct (halves k2) as (?&?&?); [lia|].
  destruct (flat3_encode k0 k1 k2 r) as (_ & R0 & R1 & R2); try lia. destruct (flat3_encode n0 n1 n2 p) as (_ & Q0 & Q1 & Q2); try lia.
  unfold of0, of1, of2. rewrite (aget_ok _ z) by (auto; unfold inr; rewrite E0, E1, E2; lia). f_equal. rewrite <- (VW r Hr).
  unfold window, PW in EW. cbn [fst snd] in EW. match type of EW with context [if ?c then _ else _] => destruct c end; [|discriminate]. inversion EW; subst w.
  f_equal; lia.
Qed.

Lemma phase_eq : forall f p r, 0 <= p < N -> 0 <= r < K ->
  in_phase per S3 f p (offset R3 r) = negb (shows n0 n1 n2 k0 k1 k2 per 0 f p r =? 0).
Proof.
  intros f p r Hp Hr. unfold in_phase, shows.
  assert (HM : forall q, 0 <= q < N -> movedb per S3 (coords S3 p) (offset R3 r) (coords S3 q) = true <-> part n0 n1 n2 k0 k1 k2 per p r = Some q).
  { intros q Hq. apply part_movedb; auto. }
  assert (ZP : zprod S3 = N) by (cbn [zprod]; lia). unfold pixels. rewrite ZP.
  destruct (part n0 n1 n2 k0 k1 k2 per p r) as [q|] eqn:EP.
  - assert (Hq : 0 <= q < N) by (unfold part in EP; eapply partner_range; [exact Pn|exact EP]).
    destruct (negb (nth (Z.to_nat q) f 0 =? 0)) eqn:EN.
    + apply existsb_exists. exists q. split; [apply zrange_In; auto|]. apply andb_true_iff. split; [apply HM; auto|exact EN].
    + apply not_true_is_false. intros EX. apply existsb_exists in EX. destruct EX as (q' & IN & B). apply andb_true_iff in B. destruct B as [B1 B2].
      apply zrange_In in IN. apply HM in B1; auto. inversion B1; subst q'. unfold zn in B2. congruence.
  - apply not_true_is_false. intros EX. apply existsb_exists in EX. destruct EX as (q' & IN & B). apply andb_true_iff in B. destruct B as [B1 B2].
    apply zrange_In in IN. apply HM in B1; auto. discriminate.
Qed.

Lemma soff_off : forall r, 0 <= r < K -> soff k0 k1 k2 (p0 + of0 k0 k1 k2 r) (p1 + of1 k1 k2 r) (p2 + of2 k2 r) = r.
Proof.
  intros r Hr. unfold soff, of0, of1, of2. destruct (flat3_encode k0 k1 k2 r) as (E & R0 & R1 & R2); try lia. unfold flat3 in E.
  etransitivity; [|exact E]. destruct (Z.eqb_spec k0 1); destruct (Z.eqb_spec k1 1); destruct (Z.eqb_spec k2 1); nia.
Qed.

Definition b2q (b : bool) : Qc := if b then 1%Qc else 0%Qc.

(** ** One walk *)

Lemma offset_inj : forall r r', 0 <= r < K -> 0 <= r' < K -> offset R3 r = offset R3 r' -> r = r'.
Proof. intros r r' H H' E. rewrite <- (at_off_offset r H), <- (at_off_offset r' H'), E. reflexivity. Qed.

Lemma walk_lin : forall f F p rows, padded n0 n1 n2 k0 k1 k2 per 0 f F -> 0 <= p < N -> NoDup rows -> (forall d, In d rows -> in_roi d) ->
  lin vecA (ixA k0 k1 k2) (dims k0 k1 k2) (dims k0 k1 k2) (fun a => L_walk (PW k0 k1 k2) F (wpos n1 n2 k0 k1 k2 p) rows a)
    (Ok (fun r => b2q (reaches (in_phase per S3 f p) (offset R3 r) rows))).
Proof.
  intros f F p rows HP Hp. induction rows as [|d rows IH]; intros ND HB.
  - cbn [L_walk reaches b2q]. apply lin_ret.
  - inversion ND as [|? ? NI ND']; subst. destruct (HB d (or_introl eq_refl)) as (r0 & Hr0 & Ed).
    pose proof (padded_at _ _ _ _ _ p r0 HP Hp Hr0) as HA. unfold wpos in *. pose proof (off3 r0 Hr0) as E3.
    assert (PH : in_phase per S3 f p d = negb (shows n0 n1 n2 k0 k1 k2 per 0 f p r0 =? 0)) by (rewrite Ed; apply phase_eq; auto).
    assert (ED : forall r, 0 <= r < K -> same_offset (offset R3 r) d = (r0 =? r)).
    { intros r Hr. rewrite Ed. destruct (Z.eqb_spec r0 r) as [<-|NE]; [apply same_offset_iff; auto|]. apply not_true_is_false. intros X. apply same_offset_iff in X. apply offset_inj in X; auto. }
    assert (NI' : ~ In (offset R3 r0) rows) by (rewrite <- Ed; exact NI). rewrite E3 in Ed. cbn [reaches].
    eapply lin_ext with (pt' := fun a => if shows n0 n1 n2 k0 k1 k2 per 0 f p r0 =? 0 then Ok a else
        a' <- incr a (p0 + of0 k0 k1 k2 r0) (p1 + of1 k1 k2 r0) (p2 + of2 k2 r0) 1%Qc ;; L_walk (PW k0 k1 k2) F (wpos n1 n2 k0 k1 k2 p) rows a').
    { intros a _. rewrite Ed. cbn [L_walk]. unfold wpos, PW. rewrite HA. cbn [bind]. reflexivity. }
    rewrite PH. destruct (shows n0 n1 n2 k0 k1 k2 per 0 f p r0 =? 0) eqn:ES; cbn [negb andb].
    + eapply lin_out; [|apply lin_ret]. intros r _. reflexivity.
    + eapply lin_out; [|eapply lin_seq_ok; [apply lin_incr_ok; rewrite soff_off; auto|apply IH; auto; intros; apply HB; right; auto]].
      intros r Hr. unfold ixA in Hr. cbv beta. rewrite soff_off by auto. rewrite (ED r Hr). destruct (Z.eqb_spec r0 r) as [<-|NE]; cbn [orb]; [|ring].
      assert (ER : reaches (in_phase per S3 f p) (offset R3 r0) rows = false).
      { clear -NI'. induction rows as [|x l IHl]; auto. cbn [reaches].
        destruct (same_offset (offset R3 r0) x) eqn:ES; [apply same_offset_iff in ES; exfalso; apply NI'; left; auto|]. rewrite IHl by (intros X; apply NI'; right; auto). apply andb_false_r. }
      rewrite ER. cbn [b2q]. ring.
Qed.

Lemma norm_lin : forall size rows, NoDup rows -> (forall d, In d rows -> in_roi d) ->
  lin vecA (ixA k0 k1 k2) (dims k0 k1 k2) (dims k0 k1 k2) (fun a => foldM (L_norm (PW k0 k1 k2) size) rows a)
    (Ok (fun r => if visits (offset R3 r) rows then zq size else 0%Qc)).
Proof.
  intros size rows ND HB. eapply lin_out; [|eapply lin_fold_ok with (D := fun d r => if same_offset (offset R3 r) d then zq size else 0%Qc)].
  - intros r Hr. cbv beta. unfold visits. clear HB. induction rows as [|d rows IH]; auto. inversion ND as [|? ? NI ND']; subst. cbn [sum_over fold_right existsb].
    fold (sum_over rows (fun d => if same_offset (offset R3 r) d then zq size else 0%Qc)). rewrite IH by auto. destruct (same_offset (offset R3 r) d) eqn:ES; cbn [orb]; [|ring].
    apply same_offset_iff in ES. destruct (existsb (same_offset (offset R3 r)) rows) eqn:EX; [|ring]. exfalso. apply existsb_exists in EX. destruct EX as (x & IN & B).
    apply same_offset_iff in B. apply NI. rewrite <- ES, B. exact IN.
  - intros d IN. destruct (HB d IN) as (r0 & Hr0 & Ed). rewrite off3 in Ed by auto. rewrite Ed. unfold L_norm, PW.
    eapply lin_out; [|apply lin_incr_ok; rewrite soff_off; auto]. intros r Hr. cbv beta. rewrite soff_off by auto. rewrite <- off3 by auto.
    destruct (Z.eqb_spec r0 r) as [<-|NE].
    + replace (same_offset (offset R3 r0) (offset R3 r0)) with true by (symmetry; apply same_offset_iff; auto). reflexivity.
    + replace (same_offset (offset R3 r) (offset R3 r0)) with false; auto. symmetry. apply not_true_is_false. intros X. apply same_offset_iff in X. apply offset_inj in X; auto.
Qed.

(** ** One end point *)

Definition good_path (mode : path_mode) (x : list Z) (rows : list (list Z)) : Prop :=
  path (the_fuel k0 k1 k2) [0; 0; 0] x mode = Ok rows /\ path_between (some_closer x) [0; 0; 0] x rows.

Lemma good_rows : forall mode r rows, 0 <= r < K -> good_path mode (offset R3 r) rows -> NoDup rows /\ forall d, In d rows -> in_roi d.
Proof.
  intros mode r rows Hr (_ & H1 & _ & H3). split; [eapply rows_NoDup; eauto|]. destruct rows as [|x rows]; [intros d []|]. cbn in H1. inversion H1; subst x.
  intros d IN. apply (between_in_roi r); auto. eapply rows_between; eauto. destruct (offset_box r Hr) as (a & b & c & E & _). rewrite E. unfold between. repeat (apply Forall2_cons; [lia|]). apply Forall2_nil.
Qed.

Lemma stamp_lin : forall s f F size mode r rows, padded n0 n1 n2 k0 k1 k2 per 0 f F -> 0 <= r < K -> good_path mode (offset R3 r) rows ->
  lin vecE (ixE k0 k1 k2) (okS s per var roi k0 k1 k2) (okS s per var roi k0 k1 k2) (fun e => L_stamp (PW k0 k1 k2) F size mode e (offset R3 r))
    (Ok (fun i => match fst i with
       | C_first => sum_over (zrange 0 N) (fun p => b2q (reaches (in_phase per S3 f p) (offset R3 (snd i)) rows))
       | C_second => 0%Qc
       | C_norm => if visits (offset R3 (snd i)) rows then zq size else 0%Qc end)).
Proof.
  intros s f F size mode r rows HP Hr HG. destruct (good_rows mode r rows Hr HG) as (ND & HB). destruct HG as (EP & _).
  eapply lin_ext with (pt' := fun e => a <- foldM (fun (first : arr Qc) x => L_walk (PW k0 k1 k2) F x rows first) (positions (PW k0 k1 k2) F) (e_first e) ;;
     c <- foldM (L_norm (PW k0 k1 k2) size) rows (e_norm e) ;; Ok (set_data e a (e_second e) c)).
  { intros e [HO _]. unfold L_stamp. rewrite (fuel_eq per var roi k0 k1 k2 e HO), EP. reflexivity. }
  rewrite (padded_pos n0 n1 n2 k0 k1 k2 Pn _ _ _ _ _ HP).
  apply (lift_ok per var roi k0 k1 k2 s (fun a => foldM (fun (first : arr Qc) x => L_walk (PW k0 k1 k2) F x rows first) (map (wpos n1 n2 k0 k1 k2) (zrange 0 N)) a)
    (fun a => foldM (L_norm (PW k0 k1 k2) size) rows a)
    (fun r => sum_over (zrange 0 N) (fun p => b2q (reaches (in_phase per S3 f p) (offset R3 r) rows)))
    (fun r => if visits (offset R3 r) rows then zq size else 0%Qc)); [|apply norm_lin; auto].
  assert (E : forall e, foldM (fun (first : arr Qc) x => L_walk (PW k0 k1 k2) F x rows first) (map (wpos n1 n2 k0 k1 k2) (zrange 0 N)) e =
    foldM (fun (first : arr Qc) p => L_walk (PW k0 k1 k2) F (wpos n1 n2 k0 k1 k2 p) rows first) (zrange 0 N) e).
  { generalize (zrange 0 N). induction l as [|x l IH]; intros e; [reflexivity|]. cbn [map foldM]. destruct (L_walk _ _ _ _ _); cbn [bind]; auto. }
  eapply lin_ext; [intros a _; apply E|]. apply (lin_fold_ok vecA (ixA k0 k1 k2) _ (fun (first : arr Qc) p => L_walk (PW k0 k1 k2) F (wpos n1 n2 k0 k1 k2 p) rows first)
    (fun p r => b2q (reaches (in_phase per S3 f p) (offset R3 r) rows))). intros p IN. apply zrange_In in IN. apply (walk_lin f); auto.
Qed.

(** ** The end points *)

Lemma border_eq : forall r, 0 <= r < K ->
  border R3 r = negb (interior k0 (r / (k1 * k2)) && interior k1 (r / k2 mod k1) && interior k2 (r mod k2)).
Proof.
  intros r Hr. unfold border. assert (EC : coords R3 r = [r / (k1 * k2); r / k2 mod k1; r mod k2]).
  { pose proof (off3 r Hr) as E. unfold offset, diff, anchor, of0, of1, of2 in E. cbn [coords zprod map combine fst snd] in *. inversion E. f_equal; [lia|f_equal; [lia|f_equal; lia]]. }
  rewrite EC. cbn [combine existsb fst snd]. unfold interior. destruct (flat3_encode k0 k1 k2 r) as (_ & R0 & R1 & R2); try lia.
  set (a := r / (k1 * k2)) in *. set (b := r / k2 mod k1) in *. set (c := r mod k2) in *. clearbody a b c.
  assert (G : forall n k, 0 <= k < n -> (1 <? n) && ((k =? 0) || (k =? n - 1)) = negb (if 1 <? n then (1 <=? k) && (k <? n - 1) else true)).
  { intros n k Hk. destruct (1 <? n) eqn:E1; cbn [andb negb]; auto. destruct (Z.eqb_spec k 0); destruct (Z.eqb_spec k (n - 1)); destruct (Z.leb_spec 1 k); destruct (Z.ltb_spec k (n - 1)); cbn; auto; lia. }
  rewrite !G by auto. rewrite orb_false_r, <- !negb_andb, andb_assoc. reflexivity.
Qed.

Lemma stamps_edge : stamps k0 k1 k2 (PW k0 k1 k2) = edge R3.
Proof.
  unfold stamps, edge, PW, pixels. rewrite loop3_dec by lia. replace (zprod R3) with K by (cbn [zprod]; lia).
  assert (G : forall l, (forall r, In r l -> 0 <= r < K) ->
    map (fun x : Z * Z * Z => let '(a, b, c) := x in [a - p0; b - p1; c - p2]) (filter (fun x : Z * Z * Z => let '(a, b, c) := x in negb (interior k0 a && interior k1 b && interior k2 c)) (map (dec k1 k2) l)) =
    map (offset R3) (filter (border R3) l)).
  { induction l as [|r l IH]; intros HI; auto. cbn [map filter]. rewrite (border_eq r) by (apply HI; left; auto). unfold dec at 1.
    destruct (negb _); [|apply IH; intros; apply HI; right; auto]. cbn [map]. rewrite IH by (intros; apply HI; right; auto). f_equal. unfold dec.
    rewrite off3 by (apply HI; left; auto). reflexivity. }
  apply G. intros r IN. apply zrange_In in IN. auto.
Qed.

Lemma edge_In : forall x, In x (edge R3) -> exists r, 0 <= r < K /\ x = offset R3 r.
Proof.
  intros x IN. unfold edge in IN. apply in_map_iff in IN. destruct IN as (r & <- & IN). apply filter_In in IN. destruct IN as [IN _].
  unfold pixels in IN. apply zrange_In in IN. exists r. split; auto. cbn [zprod] in IN. lia.
Qed.

Definition path_for (mode : path_mode) (x : list Z) : list (list Z) :=
  match path (the_fuel k0 k1 k2) [0; 0; 0] x mode with Ok rows => rows | _ => [] end.

Lemma sum_b2q : forall (A : Type) (l : list A) (b : A -> bool), sum_over l (fun x => b2q (b x)) = zq (lenZ (filter b l)).
Proof.
  intros A l b. induction l as [|x l IH]; [symmetry; exact zq_0|]. cbn [sum_over fold_right filter]. fold (sum_over l (fun x => b2q (b x))). rewrite IH.
  destruct (b x); cbn [b2q]; [|ring]. unfold lenZ. cbn [length]. rewrite Nat2Z.inj_succ. unfold Z.succ. rewrite zq_plus, zq_1. ring.
Qed.

Lemma sum_filter_prod : forall (A B : Type) (l : list A) (m : list B) (b : A -> B -> bool),
  sum_over l (fun x => sum_over m (fun y => b2q (b x y))) = zq (lenZ (filter (fun c => b (fst c) (snd c)) (list_prod l m))).
Proof.
  intros. rewrite <- sum_b2q. rewrite (sum_prod _ _ l m). apply sum_ext. intros x _. reflexivity.
Qed.

Lemma L_lin : forall f mode, is_image shape f -> (forall x, In x (edge R3) -> good_path mode x (path_for mode x)) ->
  lin vecE (ixE k0 k1 k2) (before asrt S_L per var roi k0 k1 k2) (okS S_L per var roi k0 k1 k2) (fun e => add asrt e (CallL f mode))
    (Ok (fun i => sum_over (edge R3) (fun x => match fst i with
       | C_first => sum_over (zrange 0 N) (fun p => b2q (reaches (in_phase per S3 (i_vals f) p) (offset R3 (snd i)) (path_for mode x)))
       | C_second => 0%Qc
       | C_norm => if visits (offset R3 (snd i)) (path_for mode x) then zq (lenZ (i_vals f)) else 0%Qc end))).
Proof.
  intros f mode Hf HG. destruct (pad_mode_ok per n0 n1 n2 k0 k1 k2 Pn Pk (D_fit _ _ _ _ _ _ _ _ _ HD) Z 0 (i_vals f)) as (F & EF & HP).
  eapply lin_ext with (pt' := fun e => foldM (L_stamp (PW k0 k1 k2) F (lenZ (i_vals f)) mode) (edge R3) (set_stat e S_L)).
  { intros e HB. pose proof HB as [HO _]. cbn [add]. unfold L. rewrite (before_assert _ _ _ _ _ _ _ _ _ HB), (ok_roi _ _ _ _ _ _ _ HO).
    rewrite (roi_ok_ok per var roi k0 k1 k2 e HO) by lia.
    rewrite (ok_pad _ _ _ _ _ _ _ HO), (ok_per _ _ _ _ _ _ _ HO), (pad_PW k0 k1 k2 Pk). destruct Hf as [Sf Lf].
    rewrite (to3_ok _ f n0 n1 n2) by (rewrite Sf; apply HD). rewrite Sf, (D_len _ _ _ _ _ _ _ _ _ HD), Nat.eqb_refl, (assert_true asrt true eq_refl), !bind_Ok, EF, bind_Ok.
    destruct HO as [_ _ _ (A0 & A1 & A2 & _) _ _]. rewrite A0, A1, A2, stamps_edge. reflexivity. }
  apply (lin_start asrt S_L per var roi k0 k1 k2 (fun e => foldM (L_stamp (PW k0 k1 k2) F (lenZ (i_vals f)) mode) (edge R3) e)).
  apply (lin_fold_ok vecE (ixE k0 k1 k2) _ (L_stamp (PW k0 k1 k2) F (lenZ (i_vals f)) mode)
    (fun x i => match fst i with
       | C_first => sum_over (zrange 0 N) (fun p => b2q (reaches (in_phase per S3 (i_vals f) p) (offset R3 (snd i)) (path_for mode x)))
       | C_second => 0%Qc
       | C_norm => if visits (offset R3 (snd i)) (path_for mode x) then zq (lenZ (i_vals f)) else 0%Qc end)).
  intros x IN. pose proof (HG x IN) as HX. destruct (edge_In x IN) as (r & Hr & ->). apply stamp_lin; auto.
Qed.

Lemma L_exact : forall f mode, is_image shape f -> (forall x, In x (edge R3) -> good_path mode x (path_for mode x)) ->
  let paths := map (path_for mode) (edge R3) in
  let all := list_prod paths (pixels shape) in
  exists e, fresh asrt roi per var (CallL f mode) = Ok e /\ roi_shaped roi e /\ paths_of mode R3 paths /\
    forall r, pixel roi r ->
      first_at e r = zq (lenZ (filter (fun c => reaches (in_phase per S3 (i_vals f) (snd c)) (offset R3 r) (fst c)) all)) /\
      norm_at e r = zq (lenZ (filter (fun c => visits (offset R3 r) (fst c)) all)) /\
      result_at e r = Exact (quotient (first_at e r) (norm_at e r)).
Proof.
  intros f mode Hf HG paths all. destruct (fresh_lin asrt per var roi shape n0 n1 n2 k0 k1 k2 S_L (CallL f mode) _ HD (L_lin f mode Hf HG)) as (e & E & O & SH & V).
  exists e. split; auto. split; auto. split.
  { unfold paths_of, paths. clear -HG. induction (edge R3) as [|x l IH]; cbn [map]; constructor; [|apply IH; intros; apply HG; right; auto].
    destruct (HG x (or_introl eq_refl)) as [G1 G2]. split; auto. eexists. exact G1. }
  assert (ZP : zprod shape = N) by (apply shape3_prod; apply HD).
  intros r Hr. destruct (V r Hr) as (Hr' & V1 & _ & V3). cbn [fst snd] in V1, V3.
  assert (W1 : first_at e r = zq (lenZ (filter (fun c => reaches (in_phase per S3 (i_vals f) (snd c)) (offset R3 r) (fst c)) all))).
  { rewrite V1. unfold all, paths, pixels. rewrite ZP.
    rewrite <- (sum_filter_prod _ _ (map (path_for mode) (edge R3)) (zrange 0 N) (fun x p => reaches (in_phase per S3 (i_vals f) p) (offset R3 r) x)). rewrite sum_map. reflexivity. }
  assert (W3 : norm_at e r = zq (lenZ (filter (fun c => visits (offset R3 r) (fst c)) all))).
  { rewrite V3. unfold all, paths, pixels. rewrite ZP.
    rewrite <- (sum_filter_prod _ _ (map (path_for mode) (edge R3)) (zrange 0 N) (fun x p => visits (offset R3 r) x)). rewrite sum_map. apply sum_ext. intros x _.
    destruct (visits (offset R3 r) (path_for mode x)); cbn [b2q].
    - rewrite sum_one. f_equal. destruct Hf as [_ Lf]. rewrite Lf, ZP. unfold lenZ. rewrite zrange_length. nia.
    - symmetry. apply sum_zero. }
  split; auto. split; auto. rewrite (result_at_eq S_L per var roi k0 k1 k2 e r O Hr'). cbv zeta. rewrite W3. f_equal. apply safe_count; [apply lenZ_nonneg|].
  intros Z0. rewrite W1. etransitivity; [|exact zq_0]. f_equal.
  assert (LE : lenZ (filter (fun c => reaches (in_phase per S3 (i_vals f) (snd c)) (offset R3 r) (fst c)) all) <= lenZ (filter (fun c => visits (offset R3 r) (fst c)) all)).
  { apply filter_le. intros c. apply reaches_visits. }
  pose proof (lenZ_nonneg _ (filter (fun c => reaches (in_phase per S3 (i_vals f) (snd c)) (offset R3 r) (fst c)) all)). lia.
Qed.
End L.

(** ** The paths exist *)

Lemma span3 : forall a b c B, Z.abs a <= B -> Z.abs b <= B -> Z.abs c <= B -> span [0; 0; 0] [a; b; c] <= B.
Proof. intros. cbn [span]. lia. Qed.

Lemma closer_refl : forall g x, length g = length x -> closer g x x.
Proof. induction g as [|a g IH]; intros [|b x] H; cbn in *; auto; try discriminate. Qed.

Lemma one_some_closer : forall g x y, length g = length x -> one_closer g x y -> some_closer g x y.
Proof.
  unfold some_closer. induction g as [|a g IH]; intros [|b x] [|c y] HL H; cbn in H |- *; try contradiction. cbn in HL.
  destruct H as [[E H]|(H1 & H2 & ->)].
  - destruct (IH x y) as [A B]; auto. split; [split; [left; lia|auto]|congruence].
  - split; [split; [right; auto|apply closer_refl; lia]|]. intros E. inversion E. destruct (Z_lt_ge_dec b a); [rewrite Z.sgn_pos in * by lia|rewrite Z.sgn_neg in * by lia]; lia.
Qed.

Lemma one_some_rows : forall g rows x, length g = length x -> consecutive (one_closer g) (x :: rows) -> consecutive (some_closer g) (x :: rows).
Proof.
  intros g. induction rows as [|y rows IH]; intros x HL H; [exact I|]. destruct H as [H1 H2]. pose proof (one_some_closer g x y HL H1) as H3. split; auto.
  apply IH; auto. destruct H3 as [H3 _]. apply closer_length in H3. lia.
Qed.

Lemma walkable3 : forall roi k0 k1 k2 mode, shape3 roi = Ok (k0, k1, k2) -> walkable mode roi -> walkable mode [k0; k1; k2].
Proof.
  intros [|a [|b [|c [|d s]]]] k0 k1 k2 mode H W; cbn in H; inversion H; subst; destruct mode; cbn [walkable] in *;
    repeat match goal with HF : Forall _ (_ :: _) |- _ => inversion HF; clear HF; subst end; repeat (apply Forall_cons; [lia|]); apply Forall_nil.
Qed.

Lemma path_for_eq : forall k0 k1 k2 mode x rows, path (the_fuel k0 k1 k2) [0; 0; 0] x mode = Ok rows -> path_for k0 k1 k2 mode x = rows.
Proof. intros. unfold path_for. rewrite H. reflexivity. Qed.

Lemma border_nonzero : forall per roi shape n0 n1 n2 k0 k1 k2, dims3 per roi shape n0 n1 n2 k0 k1 k2 -> k0 <> 2 -> k1 <> 2 -> k2 <> 2 ->
  forall r, 0 <= r < k0 * k1 * k2 -> border [k0; k1; k2] r = true -> offset [k0; k1; k2] r <> [0; 0; 0].
Proof.
  intros per roi shape n0 n1 n2 k0 k1 k2 HD N0 N1 N2 r Hr HB E. rewrite (border_eq _ _ _ _ _ _ _ _ _ HD r Hr) in HB. rewrite (off3 _ _ _ _ _ _ _ _ _ HD r Hr) in E.
  pose proof (D_pk _ _ _ _ _ _ _ _ _ HD) as (K0 & K1 & K2). destruct (flat3_encode k0 k1 k2 r) as (_ & R0 & R1 & R2); try lia.
  unfold of0, of1, of2 in E. injection E as E0 E1 E2.
  assert (G : forall n k, n <> 2 -> 1 <= n -> k - (n - 1) / 2 = 0 -> interior n k = true).
  { intros n k A B C. unfold interior. destruct (1 <? n) eqn:E1n; auto. apply Z.ltb_lt in E1n. apply andb_true_iff. split; [apply Z.leb_le|apply Z.ltb_lt]; Z.to_euclidean_division_equations; lia. }
  rewrite !G in HB by (auto; lia). discriminate.
Qed.

Lemma paths_exist : forall per roi shape n0 n1 n2 k0 k1 k2 mode, dims3 per roi shape n0 n1 n2 k0 k1 k2 -> walkable mode roi ->
  forall x, In x (edge [k0; k1; k2]) -> good_path k0 k1 k2 mode x (path_for k0 k1 k2 mode x).
Proof.
  intros per roi shape n0 n1 n2 k0 k1 k2 mode HD W x IN. apply (walkable3 _ k0 k1 k2) in W; [|apply HD].
  unfold edge in IN. apply in_map_iff in IN. destruct IN as (r & <- & IN). apply filter_In in IN. destruct IN as [IN HB].
  unfold pixels in IN. apply zrange_In in IN. assert (Hr : 0 <= r < k0 * k1 * k2) by (cbn [zprod] in IN; lia). clear IN.
  pose proof (D_pk _ _ _ _ _ _ _ _ _ HD) as (K0 & K1 & K2).
  pose proof (border_nonzero _ _ _ _ _ _ _ _ _ HD) as NZ.
  destruct (offset_box _ _ _ _ _ _ _ _ _ HD r Hr) as (a & b & c & E & Ha & Hb & Hc).
  destruct (halves k0) as (?&?&?); [lia|]. destruct (halves k1) as (?&?&?); [lia|]. destruct (halves k2) as (?&?&?); [lia|].
  assert (B : (k0 - 1) / 2 <= k0 / 2 /\ (k1 - 1) / 2 <= k1 / 2 /\ (k2 - 1) / 2 <= k2 / 2) by (clear; Z.to_euclidean_division_equations; lia).
  assert (F : (Z.to_nat (manhattan [0; 0; 0]%Z [a; b; c]) < the_fuel k0 k1 k2)%nat) by (unfold the_fuel; cbn [manhattan]; lia).
  assert (F' : (Z.to_nat (span [0; 0; 0]%Z [a; b; c]) < the_fuel k0 k1 k2)%nat) by (unfold the_fuel; cbn [span]; lia).
  assert (TO : through_origin [0; 0; 0] [a; b; c]).
  { exists 0%Q. repeat constructor; intros _; rewrite Qmult_0_l; reflexivity. }
  specialize (NZ) with (r := r). rewrite E in NZ |- *.
  destruct mode; cbn [walkable] in W; repeat match goal with HF : Forall _ (_ :: _) |- _ => inversion HF; clear HF; subst end.
  - destruct (list_eq_dec Z.eq_dec [0; 0; 0] [a; b; c]) as [EQ|NE].
    + injection EQ as <- <- <-. destruct (the_fuel k0 k1 k2) as [|fuel] eqn:EF; [lia|]. unfold good_path. rewrite (path_for_eq _ _ _ _ _ [[0; 0; 0]]) by (rewrite EF; apply bres_same_3).
      rewrite EF. split; [apply bres_same_3|]. split; [reflexivity|]. split; [reflexivity|exact I].
    + destruct (bresenham_connected (the_fuel k0 k1 k2) [0; 0; 0] [a; b; c]) as (rows & EP & PB & _); auto; [cbn; lia| |].
      { apply Z.le_lt_trans with (2 ^ 29); [|lia]. apply span3; Z.to_euclidean_division_equations; lia. }
      rewrite (path_for_eq _ _ _ _ _ rows EP). split; auto.
  - destruct (actual_from_origin (the_fuel k0 k1 k2) [0; 0; 0] [a; b; c]) as (rows & EP & PB); auto; [cbn; lia| | |lia|].
    { intros X. apply NZ; auto; lia. }
    { apply span3; Z.to_euclidean_division_equations; lia. }
    rewrite (path_for_eq _ _ _ _ _ rows EP). split; auto.
  - destruct (full_from_origin (the_fuel k0 k1 k2) [0; 0; 0] [a; b; c]) as (rows & EP & PB & _); auto; [cbn; lia| | |lia|].
    { intros X. apply NZ; auto; lia. }
    { apply span3; Z.to_euclidean_division_equations; lia. }
    rewrite (path_for_eq _ _ _ _ _ rows EP). split; auto. destruct PB as (P1 & P2 & P3). split; auto. split; auto. destruct rows as [|y rows]; [exact I|].
    cbn in P1. inversion P1; subst y. apply one_some_rows; auto.
Qed.

(** ** C40 *)

Lemma L_counts : forall asrt per var roi shape f mode, shapes per roi shape -> is_image shape f -> walkable mode roi ->
  exists e paths, fresh asrt roi per var (CallL f mode) = Ok e /\ roi_shaped roi e /\ paths_of mode (three roi) paths /\
    forall r, pixel roi r ->
      let d := offset (three roi) r in
      let walks := list_prod paths (pixels shape) in
      let free := fun walk : list (list Z) * Z => reaches (in_phase per (three shape) (i_vals f) (snd walk)) d (fst walk) in
      let through := fun walk : list (list Z) * Z => visits d (fst walk) in
      first_at e r = zq (lenZ (filter free walks)) /\
      norm_at e r = zq (lenZ (filter through walks)) /\
      result_at e r = Exact (quotient (first_at e r) (norm_at e r)).
Proof.
  intros asrt per var roi shape f mode HS Hf W. destruct (shapes_dims3 _ _ _ HS) as (n0 & n1 & n2 & k0 & k1 & k2 & HD).
  rewrite (three_eq roi k0 k1 k2), (three_eq shape n0 n1 n2) by apply HD.
  destruct (L_exact asrt per var _ _ _ _ _ _ _ _ HD f mode Hf (paths_exist _ _ _ _ _ _ _ _ _ mode HD W)) as (e & H1 & H2 & H3 & H4).
  exists e. eexists. split; [exact H1|]. split; [exact H2|]. split; [exact H3|exact H4].
Qed.

Lemma L_bounds : forall asrt per var roi shape f mode, shapes per roi shape -> is_image shape f -> walkable mode roi ->
  exists e, fresh asrt roi per var (CallL f mode) = Ok e /\
    forall r, pixel roi r -> exists q, result_at e r = Exact q /\ (0 <= q)%Qc /\ (q <= 1)%Qc.
Proof.
  intros asrt per var roi shape f mode HS Hf W. destruct (L_counts asrt per var roi shape f mode HS Hf W) as (e & paths & H1 & _ & _ & H4).
  exists e. split; auto. intros r Hr. destruct (H4 r Hr) as (A & B & C). rewrite C. eexists. split; [reflexivity|]. rewrite A, B. split.
  - apply quotient_nonneg; [apply zq_nonneg|]; apply lenZ_nonneg.
  - apply quotient_le_1; [apply lenZ_nonneg|]. apply zq_le. apply filter_le. intros x. apply reaches_visits.
Qed.

Lemma phase_centre : forall per shape f p, Forall (fun n => 1 <= n) shape -> pixel shape p -> forall d, zero_offset d -> length d = length shape ->
  in_phase per shape f p d = negb (zn f p =? 0).
Proof.
  intros per shape f p HP Hp d HZ HL. assert (P0 : Forall (fun n => 0 < n) shape) by (eapply Forall_impl; try exact HP; intros; simpl in *; lia).
  assert (HM : forall q, pixel shape q -> movedb per shape (coords shape p) d (coords shape q) = true <-> p = q).
  { intros q Hq. rewrite movedb_zero; auto; try (apply coords_inside; auto). split; [|intros ->; auto]. intros E. eapply coords_inj; eauto. }
  unfold in_phase. destruct (negb (zn f p =? 0)) eqn:EN.
  - apply existsb_exists. exists p. split; [apply zrange_In; auto|]. apply andb_true_iff. split; auto. apply HM; auto.
  - apply not_true_is_false. intros EX. apply existsb_exists in EX. destruct EX as (q & IN & B). apply andb_true_iff in B. destruct B as [B1 B2].
    unfold pixels in IN. apply zrange_In in IN. apply HM in B1; auto. subst q. congruence.
Qed.

Lemma three_zero : forall roi r, (length roi <= 3)%nat -> Forall (fun n => 1 <= n) roi -> pixel roi r -> zero_offset (offset roi r) ->
  offset (three roi) r = [0; 0; 0].
Proof.
  intros roi r HL HP Hr HZ. unfold pixel in Hr. destruct roi as [|a [|b [|c [|d s]]]]; [| | | |cbn in HL; lia];
    repeat match goal with HF : Forall _ (_ :: _) |- _ => inversion HF; clear HF; subst end;
    unfold zero_offset, offset, diff, anchor in *; cbn [three coords zprod map combine fst snd In] in *; rewrite ?Z.mul_1_r, ?Z.div_1_r, ?Z.mod_1_r in *;
    change ((1 - 1) / 2) with 0.
  - assert (r = 0) by lia. subst r. reflexivity.
  - specialize (HZ (r - (a - 1) / 2) (or_introl eq_refl)). rewrite Z.div_small, Z.mod_small by lia. f_equal. f_equal. lia.
  - pose proof (HZ _ (or_introl eq_refl)). pose proof (HZ _ (or_intror (or_introl eq_refl))). f_equal; [lia|]. f_equal. lia.
  - pose proof (HZ _ (or_introl eq_refl)). pose proof (HZ _ (or_intror (or_introl eq_refl))). pose proof (HZ _ (or_intror (or_intror (or_introl eq_refl)))).
    f_equal; [lia|]. f_equal; [lia|]. f_equal. lia.
Qed.

Lemma filter_prod_snd : forall (A B : Type) (P : A * B -> bool) (Q : B -> bool) (l : list A) (m : list B), (forall x y, In x l -> In y m -> P (x, y) = Q y) ->
  lenZ (filter P (list_prod l m)) = lenZ l * lenZ (filter Q m).
Proof.
  intros A B P Q l m. unfold lenZ. induction l as [|x l IH]; intros H; [reflexivity|]. cbn [list_prod length]. rewrite filter_app, app_length, Nat2Z.inj_add, IH by (intros; apply H; simpl; auto).
  assert (E : length (filter P (map (fun y => (x, y)) m)) = length (filter Q m)).
  { assert (H' : forall y, In y m -> P (x, y) = Q y) by (intros; apply H; simpl; auto). clear -H'. induction m as [|y m IH]; auto. cbn [map filter]. rewrite (H' y) by (simpl; auto). destruct (Q y); cbn [length]; rewrite IH; auto; intros; apply H'; simpl; auto. }
  rewrite E. lia.
Qed.

Lemma edge_nonempty : forall roi, Forall (fun n => 1 <= n) roi -> (exists n, In n roi /\ 1 < n) -> edge roi <> [].
Proof.
  intros roi HP (n & IN & Hn) E. assert (Z0 : pixel roi 0). { unfold pixel. split; [lia|]. clear -HP. induction HP as [|x l H HP IH]; cbn [zprod]; nia. }
  assert (B : border roi 0 = true).
  { unfold border. apply existsb_exists. exists (0, n). split.
    - clear -IN HP. assert (forall l, coords l 0 = map (fun _ => 0) l). { induction l as [|x l IH]; auto. cbn [coords map]. rewrite Zdiv_0_l, Zmod_0_l, IH. reflexivity. }
      rewrite H. clear -IN. induction roi as [|x l IH]; [destruct IN|]. cbn [map combine]. destruct IN as [<-|IN]; [left; auto|right; auto].
    - cbn [fst snd]. replace (1 <? n) with true by (symmetry; apply Z.ltb_lt; auto). reflexivity. }
  assert (In (offset roi 0) (edge roi)). { apply in_map. apply filter_In. split; auto. apply zrange_In. auto. }
  rewrite E in H. destruct H.
Qed.

Lemma L_centre : forall asrt per var roi shape f mode, shapes per roi shape -> is_image shape f -> walkable mode roi ->
  (exists n, In n roi /\ 1 < n) ->
  exists e, fresh asrt roi per var (CallL f mode) = Ok e /\
    forall r, pixel roi r -> zero_offset (offset roi r) -> result_at e r = Exact (phase_fraction shape (i_vals f)).
Proof.
  intros asrt per var roi shape f mode HS Hf W (n & IN & Hn). destruct (L_counts asrt per var roi shape f mode HS Hf W) as (e & paths & H1 & _ & HP & H4).
  exists e. split; auto. intros r Hr HZ. destruct (H4 r Hr) as (A & B & C). clear H4. rewrite C, A, B. clear A B C.
  pose proof HS as (HL & H3 & HK & HN & _). assert (HK' : Forall (fun n => 1 <= n) roi) by (eapply Forall_impl; try exact HK; intros; simpl in *; lia).
  rewrite (three_zero roi r) by (auto; lia).
  assert (PN : paths <> []).
  { assert (E3 : edge (three roi) <> []).
    { apply edge_nonempty.
      - destruct roi as [|a [|b [|c [|d s]]]]; cbn [three]; auto; repeat match goal with HF : Forall _ (_ :: _) |- _ => inversion HF; clear HF; subst end; repeat (apply Forall_cons; [lia|]); apply Forall_nil.
      - exists n. split; auto. destruct roi as [|a [|b [|c [|d s]]]]; cbn [three In] in *; tauto. }
    intros ->. inversion HP. congruence. }
  assert (HH : forall rows, In rows paths -> exists rest, rows = [0; 0; 0] :: rest).
  { unfold paths_of in HP. clear -HP. induction HP as [|x rows l l' (_ & HB & _) HP IH]; intros y IN; [destruct IN|]. destruct IN as [<-|IN]; auto.
    destruct rows as [|z rest]; [discriminate|]. cbn in HB. inversion HB. eauto. }
  rewrite (filter_prod_snd _ _ _ (fun p => negb (zn (i_vals f) p =? 0))).
  2: { intros rows p IR IP. destruct (HH rows IR) as (rest & ->). cbn [fst snd reaches]. unfold pixels in IP. apply zrange_In in IP.
       assert (S1 : same_offset [0; 0; 0] [0; 0; 0] = true) by (apply same_offset_iff; auto). rewrite S1, andb_true_r.
       destruct (shapes_dims3 _ _ _ HS) as (n0 & n1 & n2 & k0 & k1 & k2 & HD). pose proof (D_pn _ _ _ _ _ _ _ _ _ HD) as PN3. rewrite (three_eq shape n0 n1 n2) by apply HD.
       apply phase_centre; auto.
       - repeat (apply Forall_cons; [lia|]). apply Forall_nil.
       - unfold pixel. rewrite (shape3_prod shape n0 n1 n2) in IP by apply HD. cbn [zprod]. lia.
       - intros t. cbn. intuition. }
  rewrite (filter_prod_snd _ _ _ (fun p => true)).
  2: { intros rows p IR IP. destruct (HH rows IR) as (rest & ->). unfold visits. cbn [fst existsb]. replace (same_offset [0; 0; 0] [0; 0; 0]) with true by (symmetry; apply same_offset_iff; auto). reflexivity. }
  rewrite (filter_all _ (fun _ => true)) by (intros; reflexivity). f_equal. unfold phase_fraction.
  assert (LP : lenZ (pixels shape) = zprod shape). { unfold lenZ, pixels. rewrite zrange_length. assert (0 <= zprod shape). { clear -HN. induction HN as [|x l H HN IH]; cbn [zprod]; nia. } lia. }
  assert (ZP : 0 < zprod shape) by (clear -HN; induction HN as [|x l H HN IH]; cbn [zprod]; nia).
  rewrite LP. set (b := lenZ (filter _ (pixels shape))). clearbody b. assert (LA : 0 < lenZ paths) by (destruct paths; [congruence|unfold lenZ; cbn [length]; lia]).
  set (a := lenZ paths) in *. clearbody a. set (c := zprod shape) in *. clearbody c. clear -LA ZP. unfold quotient.
  assert (Na : zq a <> 0%Qc) by (rewrite <- zq_0; intros E; apply zq_inj in E; lia).
  assert (Nc : zq c <> 0%Qc) by (rewrite <- zq_0; intros E; apply zq_inj in E; lia).
  destruct (Qceq_b (zq (a * c)) 0%Qc) eqn:EB.
  - exfalso. apply Qceq_b_iff in EB. rewrite <- zq_0 in EB. apply zq_inj in EB. nia.
  - rewrite !zq_mult. field. auto.
Qed.
