(** * EnsembleWindow: the measures that slide a window over the image (proofs only) *)

From Coq Require Import ZArith QArith Qcanon List Bool Lia.
From Verif Require Import Base BaseLemmas SpecCluster Array3 Array3Lemmas Path SpecPath SpecDilate DilateTop Ensemble SpecEnsemble EnsembleSums EnsembleLin.
Import ListNotations.
Open Scope Z_scope.

Lemma halves : forall k, 1 <= k -> 0 <= (k - 1) / 2 /\ 0 <= k / 2 /\ (k - 1) / 2 + k / 2 + 1 = k.
Proof. intros. Z.to_euclidean_division_equations; lia. Qed.

Section Win.
Variables (per : bool) (n0 n1 n2 k0 k1 k2 : Z).
Hypothesis Pn : 1 <= n0 /\ 1 <= n1 /\ 1 <= n2.
Hypothesis Pk : 1 <= k0 < 2 ^ 62 /\ 1 <= k1 < 2 ^ 62 /\ 1 <= k2 < 2 ^ 62.
Hypothesis HF : per = true -> k0 / 2 <= n0 /\ k1 / 2 <= n1 /\ k2 / 2 <= n2.

Let p0 := (k0 - 1) / 2.
Let p1 := (k1 - 1) / 2.
Let p2 := (k2 - 1) / 2.
Let q0 := k0 / 2.
Let q1 := k1 / 2.
Let q2 := k2 / 2.
Definition PW : pads := ((p0, q0), (p1, q1), (p2, q2)).

Lemma pad_PW : pad_width k0 k1 k2 = PW.
Proof. unfold pad_width, PW, p0, p1, p2, q0, q1, q2. rewrite !pad_axis_eq by lia. reflexivity. Qed.

Lemma PWs : 0 <= p0 /\ 0 <= q0 /\ 0 <= p1 /\ 0 <= q1 /\ 0 <= p2 /\ 0 <= q2 /\ p0 + q0 + 1 = k0 /\ p1 + q1 + 1 = k1 /\ p2 + q2 + 1 = k2.
Proof.
  unfold p0, q0, p1, q1, p2, q2. destruct (halves k0) as (?&?&?); [lia|]. destruct (halves k1) as (?&?&?); [lia|]. destruct (halves k2) as (?&?&?); [lia|].
  split; [auto|]. split; [auto|]. split; [auto|]. split; [auto|]. split; [auto|]. auto.
Qed.

(** Offset of a roi element. *)
Definition of0 (r : Z) : Z := r / (k1 * k2) - (k0 - 1) / 2.
Definition of1 (r : Z) : Z := r / k2 mod k1 - (k1 - 1) / 2.
Definition of2 (r : Z) : Z := r mod k2 - (k2 - 1) / 2.

Definition part (b : bool) (p r : Z) : option Z := partner b n0 n1 n2 (of0 r) (of1 r) (of2 r) (dec n1 n2 p).

(** What a window around [p] shows at [r]. *)
Definition shows {A} (b : bool) (z : A) (vals : list A) (p r : Z) : A :=
  match part b p r with Some q => nth (Z.to_nat q) vals z | None => z end.

Definition wpos (p : Z) : Z * Z * Z := (p0 + p / (n1 * n2), p1 + p / n2 mod n1, p2 + p mod n2).

Definition padded {A} (b : bool) (z : A) (vals : list A) (F : arr A) : Prop :=
  d0 F = p0 + n0 + q0 /\ d1 F = p1 + n1 + q1 /\ d2 F = p2 + n2 + q2 /\ wfa F /\
  forall p, 0 <= p < n0 * n1 * n2 ->
    aget3 F (wpos p) = Ok (nth (Z.to_nat p) vals z) /\
    exists w, window z PW F (wpos p) = Ok w /\
      forall r, 0 <= r < k0 * k1 * k2 -> w (r / (k1 * k2)) (r / k2 mod k1) (r mod k2) = shows b z vals p r.

Lemma padded_pos : forall A b z vals (F : arr A), padded b z vals F -> positions PW F = map wpos (zrange 0 (n0 * n1 * n2)).
Proof.
  intros A b z vals F (E0 & E1 & E2 & _ & _). unfold positions, PW. rewrite E0, E1, E2.
  replace (p0 + n0 + q0 - q0) with (p0 + n0) by lia. replace (p1 + n1 + q1 - q1) with (p1 + n1) by lia. replace (p2 + n2 + q2 - q2) with (p2 + n2) by lia.
  rewrite loop3_shift, loop3_dec, map_map by lia. reflexivity.
Qed.

Lemma tab_padded : forall A b (z : A) vals g,
  (forall h i j, 0 <= h < p0 + n0 + q0 -> 0 <= i < p1 + n1 + q1 -> 0 <= j < p2 + n2 + q2 ->
     g h i j = match partner b n0 n1 n2 0 0 0 (h - p0, i - p1, j - p2) with Some q => nth (Z.to_nat q) vals z | None => z end) ->
  padded b z vals (tab (p0 + n0 + q0) (p1 + n1 + q1) (p2 + n2 + q2) g).
Proof.
  intros A b z vals g Hg. pose proof PWs as HP.
  assert (W : wfa (tab (p0 + n0 + q0) (p1 + n1 + q1) (p2 + n2 + q2) g)) by (apply tab_wfa; lia).
  split; [auto|]. split; [auto|]. split; [auto|]. split; [auto|]. intros p Hp.
  destruct (flat3_encode n0 n1 n2 p) as (EN & R0 & R1 & R2); try lia.
  split.
  - unfold aget3, wpos. rewrite (aget_ok _ z) by (auto; unfold inr; cbn [d0 d1 d2 tab]; lia).
    rewrite at3_tab by lia. rewrite Hg by lia.
    replace (p0 + p / (n1 * n2) - p0) with (p / (n1 * n2)) by lia. replace (p1 + p / n2 mod n1 - p1) with (p / n2 mod n1) by lia.
    replace (p2 + p mod n2 - p2) with (p mod n2) by lia.
    assert (E : partner b n0 n1 n2 0 0 0 (dec n1 n2 p) = Some p).
    { apply (proj1 (partner_iff b n0 n1 n2 0 0 0 p p Pn Hp Hp)). unfold rel. rewrite !Z.add_0_r. destruct b; [|auto]. rewrite !Z.mod_mod by lia. rewrite (Z.mod_small (p / (n1 * n2)) n0) by lia. auto. }
    unfold dec in E. rewrite E. reflexivity.
  - unfold window, wpos, PW. cbn [fst snd].
    match goal with |- context [if ?c then _ else _] => replace c with true end.
    2: { symmetry. apply andb_true_iff. split; apply inb_inr; unfold inr; cbn [d0 d1 d2 tab]; lia. }
    eexists. split; [reflexivity|]. intros r Hr. cbv beta. destruct (flat3_encode k0 k1 k2 r) as (EK & S0 & S1 & S2); try lia.
    rewrite at3_tab by lia. rewrite Hg by lia. unfold shows, part, of0, of1, of2. fold p0 p1 p2.
    unfold partner, dec. rewrite !Z.add_0_r.
    replace (p0 + p / (n1 * n2) - p0 + r / (k1 * k2) - p0) with (p / (n1 * n2) + (r / (k1 * k2) - p0)) by lia.
    replace (p1 + p / n2 mod n1 - p1 + r / k2 mod k1 - p1) with (p / n2 mod n1 + (r / k2 mod k1 - p1)) by lia.
    replace (p2 + p mod n2 - p2 + r mod k2 - p2) with (p mod n2 + (r mod k2 - p2)) by lia.
    reflexivity.
Qed.

Lemma pad_constant_ok : forall A (z : A) vals, padded false z vals (pad_constant z (mkarr n0 n1 n2 vals) PW).
Proof.
  intros A z vals. unfold pad_constant, PW. cbn [d0 d1 d2]. apply tab_padded. intros h i j Hh Hi Hj.
  unfold partner, inb, at3. cbn [d0 d1 d2 dat]. rewrite !Z.add_0_r. destruct (_ && _ && _ && _ && _ && _); reflexivity.
Qed.

Lemma pad_mode_ok : forall A (z : A) vals, exists F, pad_mode per z (mkarr n0 n1 n2 vals) PW = Ok F /\ padded per z vals F.
Proof.
  intros A z vals. unfold pad_mode. destruct per eqn:EP.
  - destruct (HF eq_refl) as (F0 & F1 & F2). pose proof PWs. unfold pad_periodic, PW. cbn [d0 d1 d2].
    match goal with |- context [if ?c then _ else _] => replace c with true end.
    2: { symmetry. rewrite !andb_true_iff, !Z.leb_le. fold q0 in F0. fold q1 in F1. fold q2 in F2. unfold p0, p1, p2, q0, q1, q2 in *. Z.to_euclidean_division_equations; lia. }
    eexists. split; [reflexivity|]. apply tab_padded. intros h i j Hh Hi Hj. unfold partner, at3. cbn [d0 d1 d2 dat]. rewrite !Z.add_0_r. reflexivity.
  - eexists. split; [reflexivity|]. apply pad_constant_ok.
Qed.

(** ** Masks *)

Lemma part_per : forall p r q, 0 <= p < n0 * n1 * n2 -> part false p r = Some q -> part true p r = Some q.
Proof.
  intros p r q Hp H. unfold part in *. pose proof (partner_range _ _ _ _ _ _ _ _ _ Pn H) as Hq.
  apply partner_iff in H; auto. apply partner_iff; auto. destruct H as (A & B & C). unfold rel in *.
  destruct (flat3_encode n0 n1 n2 q) as (_ & Q0 & Q1 & Q2); try lia. rewrite <- A, <- B, <- C. rewrite !Z.mod_mod by lia. rewrite (Z.mod_small (q / (n1 * n2)) n0) by lia. auto.
Qed.

(** What the padded mask shows. *)
Definition mshow (m : list Z) (p r : Z) : Z := shows false (if per then 0 else 1) m p r.

Variables (shape roi : list Z).
Hypothesis HL : length roi = length shape.
Hypothesis Hs : shape3 shape = Ok (n0, n1, n2).
Hypothesis Hk : shape3 roi = Ok (k0, k1, k2).

Definition bin (m : list Z) : Prop := lenZ m = n0 * n1 * n2 /\ forall x, In x m -> x = 0 \/ x = 1.

Lemma part_movedb : forall b p q r, 0 <= p < n0 * n1 * n2 -> 0 <= q < n0 * n1 * n2 -> 0 <= r < k0 * k1 * k2 ->
  (movedb b shape (coords shape p) (offset roi r) (coords shape q) = true <-> part b p r = Some q).
Proof.
  intros b p q r Hp Hq Hr. rewrite movedb_iff, (moved3 b shape roi n0 n1 n2 k0 k1 k2) by (auto; lia). apply partner_iff; auto.
Qed.

(** Sum over the pixels, each with its window element, as a sum over pairs. *)
Lemma sum_seen : forall fm gm r (T : Z * Z -> Qc), bin gm -> 0 <= r < k0 * k1 * k2 ->
  sum_over (zrange 0 (n0 * n1 * n2)) (fun p =>
     if zn fm p =? 0 then
       match part per p r with Some q => (T (p, q) * (1 - zq (mshow gm p r)))%Qc | None => 0%Qc end
     else 0%Qc) =
  sum_over (filter (seen shape fm gm (offset roi r)) (pairs per shape (offset roi r))) T.
Proof.
  intros fm gm r T [GL GB] Hr. rewrite sum_filter.
  rewrite (sum_pairs per shape roi n0 n1 n2 k0 k1 k2) by (auto; lia). apply sum_ext. intros p Hp. apply zrange_In in Hp.
  fold (of0 r) (of1 r) (of2 r). fold (part per p r). destruct (part per p r) as [q|] eqn:EP.
  2: { destruct (zn fm p =? 0); reflexivity. }
  pose proof (partner_range _ _ _ _ _ _ _ _ _ Pn EP) as Hq. unfold seen. cbn [fst snd]. destruct (zn fm p =? 0); [|reflexivity]. cbn [andb].
  destruct (movedb false shape (coords shape p) (offset roi r) (coords shape q)) eqn:EM.
  - apply part_movedb in EM; auto. unfold mshow, shows. rewrite EM. cbn [negb]. rewrite orb_false_r.
    rewrite (nth_indep gm _ 0) by (unfold lenZ in GL; lia). fold (zn gm q).
    destruct (GB (zn gm q)) as [->| ->]; [apply zn_In; lia| |]; cbn [Z.eqb]; rewrite ?zq_0, ?zq_1; ring.
  - cbn [negb]. rewrite orb_true_r. unfold mshow, shows.
    destruct (part false p r) as [q'|] eqn:EF.
    + exfalso. assert (part per p r = Some q') by (destruct per; [apply part_per; auto|auto]). assert (q' = q) by congruence. subst q'.
      apply part_movedb in EF; auto. congruence.
    + destruct per; [rewrite zq_0; ring|congruence].
Qed.

Lemma mask_padded : forall m, padded false (if per then 0 else 1) m (pad_mask per (mkarr n0 n1 n2 m) PW).
Proof. intros. unfold pad_mask. apply pad_constant_ok. Qed.

(** The window of the mask, read with default 0. *)
Lemma mask_window : forall m M p, lenZ m = n0 * n1 * n2 -> padded false (if per then 0 else 1) m M -> 0 <= p < n0 * n1 * n2 ->
  aget3 M (wpos p) = Ok (zn m p) /\
  exists w, window 0 PW M (wpos p) = Ok w /\ forall r, 0 <= r < k0 * k1 * k2 -> w (r / (k1 * k2)) (r / k2 mod k1) (r mod k2) = mshow m p r.
Proof.
  intros m M p LM HM Hp. destruct HM as (E0 & E1 & E2 & (_ & _ & _ & W) & H). destruct (H p Hp) as (A & w & B & C). split.
  - rewrite A. unfold zn. f_equal. apply nth_indep. unfold lenZ in LM. lia.
  - unfold window, wpos, PW in *.
    destruct (inb M (p0 + p / (n1 * n2) - p0) (p1 + p / n2 mod n1 - p1) (p2 + p mod n2 - p2) &&
              inb M (p0 + p / (n1 * n2) + q0) (p1 + p / n2 mod n1 + q1) (p2 + p mod n2 + q2)) eqn:EI; [|discriminate].
    eexists. split; [reflexivity|]. intros r Hr. unfold mshow. rewrite <- C by auto. injection B as <-. unfold at3. apply nth_indep.
    (* the element is inside the buffer *)
    pose proof PWs as HP. destruct (flat3_encode n0 n1 n2 p) as (EN & R0 & R1 & R2); try lia. destruct (flat3_encode k0 k1 k2 r) as (EK & S0 & S1 & S2); try lia.
    pose proof (flat3_range (d0 M) (d1 M) (d2 M) (p0 + p / (n1 * n2) - p0 + r / (k1 * k2)) (p1 + p / n2 mod n1 - p1 + r / k2 mod k1) (p2 + p mod n2 - p2 + r mod k2)) as FR.
    unfold lenZ in W. rewrite E0, E1, E2 in *. lia.
Qed.

(** ** One position *)

Variables (var : bool) (s : stat).
Notation LIN := (lin vecE (ixE k0 k1 k2) (okS s per var roi k0 k1 k2) (okS s per var roi k0 k1 k2)).

(** A counted quantity [T] at one position. *)
Definition cnt (fm gm : list Z) (T : Z * Z -> Qc) (p r : Z) : Qc :=
  if zn fm p =? 0 then
    match part per p r with Some q => (T (p, q) * (1 - zq (mshow gm p r)))%Qc | None => 0%Qc end
  else 0%Qc.

Definition cnt3 (fm gm : list Z) (T1 T2 TN : Z * Z -> Qc) (p : Z) (i : comp * Z) : Qc :=
  match fst i with C_first => cnt fm gm T1 p (snd i) | C_second => cnt fm gm T2 p (snd i) | C_norm => cnt fm gm TN p (snd i) end.

Lemma mshow_none : forall m p r, part per p r = None -> zq (mshow m p r) = 1%Qc.
Proof.
  intros m p r H. destruct per eqn:EP; [discriminate H|]. unfold mshow, shows. rewrite H, EP. apply zq_1.
Qed.

Lemma Pk1 : 1 <= k0 /\ 1 <= k1 /\ 1 <= k2. Proof. lia. Qed.

Lemma cnt3_skip : forall fm gm T1 T2 TN p, (zn fm p =? 0) = false -> LIN (fun e => Ok e) (Ok (cnt3 fm gm T1 T2 TN p)).
Proof.
  intros fm gm T1 T2 TN p E. eapply lin_out; [|apply lin_ret]. intros [[] r] _; unfold cnt3, cnt; cbn [fst snd]; rewrite E; reflexivity.
Qed.

(** Values shown, for a pixel that is not masked. *)
Lemma cnt3_add : forall fm gm T1 T2 TN p (b1 b2 b3 : bool) (v1 v2 v3 : Z -> Z -> Z -> Qc), (zn fm p =? 0) = true ->
  (forall r, 0 <= r < k0 * k1 * k2 ->
     let w (v : Z -> Z -> Z -> Qc) := v (r / (k1 * k2)) (r / k2 mod k1) (r mod k2) in
     match part per p r with
     | Some q => (if b1 then w v1 else 0%Qc) = (T1 (p, q) * (1 - zq (mshow gm p r)))%Qc /\
                 (if b2 then w v2 else 0%Qc) = (T2 (p, q) * (1 - zq (mshow gm p r)))%Qc /\
                 (if b3 then w v3 else 0%Qc) = (TN (p, q) * (1 - zq (mshow gm p r)))%Qc
     | None => (if b1 then w v1 else 0%Qc) = 0%Qc /\ (if b2 then w v2 else 0%Qc) = 0%Qc /\ (if b3 then w v3 else 0%Qc) = 0%Qc
     end) ->
  LIN (fun e => Ok (set_data e (plus_if b1 (e_first e) v1) (plus_if b2 (e_second e) v2) (plus_if b3 (e_norm e) v3)))
      (Ok (cnt3 fm gm T1 T2 TN p)).
Proof.
  intros fm gm T1 T2 TN p b1 b2 b3 v1 v2 v3 E H. eapply lin_out; [|apply lin_set_data_if; exact Pk1].
  intros [c r] Hr. unfold ixE in Hr. cbn [snd] in Hr. specialize (H r Hr). unfold cnt3, cnt. cbn [fst snd]. rewrite E.
  destruct (part per p r) as [q|]; destruct H as (A & B & C); destruct c; auto.
Qed.

Lemma S2_point_lin : forall f g fm gm F G Fm Gm p, lenZ fm = n0 * n1 * n2 -> lenZ gm = n0 * n1 * n2 ->
  padded per 0%Qc f F -> padded per 0%Qc g G -> padded false (if per then 0 else 1) fm Fm -> padded false (if per then 0 else 1) gm Gm ->
  0 <= p < n0 * n1 * n2 ->
  LIN (fun e => S2_point PW F G Fm Gm e (wpos p))
      (Ok (cnt3 fm gm (fun pq => qn f (fst pq) * qn g (snd pq))%Qc (fun _ => 0%Qc) (fun _ => 1%Qc) p)).
Proof.
  intros f g fm gm F G Fm Gm p Lf Lg HF' HG HFm HGm Hp. unfold S2_point.
  destruct (mask_window fm Fm p Lf HFm Hp) as (EA & _). destruct (mask_window gm Gm p Lg HGm Hp) as (_ & wm & EW & VW).
  destruct HF' as (_ & _ & _ & _ & HF'). destruct (HF' p Hp) as (EF & _). destruct HG as (_ & _ & _ & _ & HG). destruct (HG p Hp) as (_ & wg & EG & VG).
  rewrite EA. cbn [bind]. destruct (zn fm p =? 0) eqn:E0; cbn [negb]; [|apply cnt3_skip; auto].
  rewrite EG, EW, EF. cbn [bind]. fold (qn f p).
  apply lin_ext with (pt' := fun e => Ok (set_data e
     (plus_if (negb (Qceq_b (qn f p) 0%Qc)) (e_first e) (fun a b c => qn f p * wg a b c * (1 - zq (wm a b c)))%Qc)
     (plus_if false (e_second e) (fun _ _ _ => 0%Qc)) (plus_if true (e_norm e) (fun a b c => (1 - zq (wm a b c))%Qc)))).
  { intros e _. unfold plus_if. destruct (Qceq_b (qn f p) 0%Qc); reflexivity. }
  apply cnt3_add; auto. intros r Hr. cbv zeta. cbn [fst snd]. rewrite VW, VG by auto. unfold shows at 1 2.
  destruct (part per p r) as [q|] eqn:EP.
  - fold (qn g q). destruct (Qceq_b (qn f p) 0%Qc) eqn:EQ; cbn [negb].
    + apply Qceq_b_iff in EQ. rewrite EQ. split; [ring|]. split; ring.
    + split; [ring|]. split; ring.
  - rewrite (mshow_none gm p r EP). destruct (negb _); split; try ring; split; ring.
Qed.

Lemma C2_point_lin : forall f g fm gm F G Fm Gm p, lenZ fm = n0 * n1 * n2 -> lenZ gm = n0 * n1 * n2 ->
  padded per 0 f F -> padded per 0 g G -> padded false (if per then 0 else 1) fm Fm -> padded false (if per then 0 else 1) gm Gm ->
  0 <= p < n0 * n1 * n2 ->
  LIN (fun e => C2_point PW F G Fm Gm e (wpos p))
      (Ok (cnt3 fm gm (fun pq => if same_label f g pq then 1%Qc else 0%Qc)
                (fun _ => 0%Qc) (fun _ => 1%Qc) p)).
Proof.
  intros f g fm gm F G Fm Gm p Lf Lg HF' HG HFm HGm Hp. unfold C2_point, same_label.
  destruct (mask_window fm Fm p Lf HFm Hp) as (EA & _). destruct (mask_window gm Gm p Lg HGm Hp) as (_ & wm & EW & VW).
  destruct HF' as (_ & _ & _ & _ & HF'). destruct (HF' p Hp) as (EF & _). destruct HG as (_ & _ & _ & _ & HG). destruct (HG p Hp) as (_ & wg & EG & VG).
  rewrite EA. cbn [bind]. destruct (zn fm p =? 0) eqn:E0; cbn [negb]; [|apply cnt3_skip; auto].
  rewrite EG, EW, EF. cbn [bind]. fold (zn f p).
  apply lin_ext with (pt' := fun e => Ok (set_data e
     (plus_if (negb (zn f p =? 0)) (e_first e) (fun a b c => if zn f p =? wg a b c then (1 - zq (wm a b c))%Qc else 0%Qc))
     (plus_if false (e_second e) (fun _ _ _ => 0%Qc)) (plus_if true (e_norm e) (fun a b c => (1 - zq (wm a b c))%Qc)))).
  { intros e _. unfold plus_if. destruct (zn f p =? 0); reflexivity. }
  apply cnt3_add; auto. intros r Hr. cbv zeta. cbn [fst snd]. rewrite VW, VG by auto. unfold shows at 1.
  destruct (part per p r) as [q|] eqn:EP.
  - fold (zn g q). destruct (zn f p =? 0); cbn [negb andb]; destruct (zn f p =? zn g q); (split; [ring|]; split; ring).
  - rewrite (mshow_none gm p r EP). destruct (negb _), (zn f p =? shows per 0 g p r); (split; [ring|]; split; ring).
Qed.

Lemma W2_point_lin : forall w g gm F G Gm p, lenZ gm = n0 * n1 * n2 ->
  padded per 0%Qc w F -> padded per 0%Qc g G -> padded false (if per then 0 else 1) gm Gm -> 0 <= p < n0 * n1 * n2 ->
  LIN (fun e => W2_point PW F G Gm e (wpos p))
      (Ok (cnt3 [] gm (fun pq => qn w (fst pq) * qn g (snd pq))%Qc (fun _ => 0%Qc) (fun pq => qn w (fst pq)) p)).
Proof.
  intros f g gm F G Gm p Lg HF' HG HGm Hp. unfold W2_point.
  destruct (mask_window gm Gm p Lg HGm Hp) as (_ & wm & EW & VW).
  destruct HF' as (_ & _ & _ & _ & HF'). destruct (HF' p Hp) as (EF & _). destruct HG as (_ & _ & _ & _ & HG). destruct (HG p Hp) as (_ & wg & EG & VG).
  rewrite EG, EW, EF. cbn [bind]. fold (qn f p).
  apply lin_ext with (pt' := fun e => Ok (set_data e
     (plus_if (negb (Qceq_b (qn f p) 0%Qc)) (e_first e) (fun a b c => qn f p * wg a b c * (1 - zq (wm a b c)))%Qc)
     (plus_if false (e_second e) (fun _ _ _ => 0%Qc)) (plus_if true (e_norm e) (fun a b c => (qn f p * (1 - zq (wm a b c)))%Qc)))).
  { intros e _. unfold plus_if. destruct (Qceq_b (qn f p) 0%Qc); reflexivity. }
  apply cnt3_add; [unfold zn; destruct (Z.to_nat p); reflexivity|]. intros r Hr. cbv zeta. cbn [fst snd]. rewrite VW, VG by auto. unfold shows at 1 2.
  destruct (part per p r) as [q|] eqn:EP.
  - fold (qn g q). destruct (Qceq_b (qn f p) 0%Qc) eqn:EQ; cbn [negb].
    + apply Qceq_b_iff in EQ. rewrite EQ. split; [ring|]. split; ring.
    + split; [ring|]. split; ring.
  - rewrite (mshow_none gm p r EP). destruct (negb _); split; try ring; split; ring.
Qed.

Lemma hh_point_lin : forall f fm F Fm p, lenZ fm = n0 * n1 * n2 ->
  padded per 0%Qc f F -> padded false (if per then 0 else 1) fm Fm -> 0 <= p < n0 * n1 * n2 ->
  LIN (fun e => hh_point PW F Fm e (wpos p))
      (Ok (cnt3 fm fm (sqdiff f) (fun pq => if var then (sqdiff f pq * sqdiff f pq)%Qc else 0%Qc) (fun _ => 1%Qc) p)).
Proof.
  intros f fm F Fm p Lf HF' HFm Hp. unfold hh_point.
  destruct (mask_window fm Fm p Lf HFm Hp) as (EA & wm & EW & VW).
  destruct HF' as (_ & _ & _ & _ & HF'). destruct (HF' p Hp) as (EF & wg & EG & VG).
  rewrite EA. cbn [bind]. destruct (zn fm p =? 0) eqn:E0; cbn [negb]; [|apply cnt3_skip; auto].
  rewrite EG, EW, EF. cbn [bind]. fold (qn f p). cbv zeta.
  apply lin_ext with (pt' := fun e => Ok (set_data e
     (plus_if true (e_first e) (fun a b c => (wg a b c - qn f p) * (wg a b c - qn f p) * (1 - zq (wm a b c)))%Qc)
     (plus_if var (e_second e) (fun a b c => (wg a b c - qn f p) * (wg a b c - qn f p) * ((wg a b c - qn f p) * (wg a b c - qn f p)) * (1 - zq (wm a b c)))%Qc)
     (plus_if true (e_norm e) (fun a b c => (1 - zq (wm a b c))%Qc)))).
  { intros e [[O1 O2 O3 O4 O5 O6] O7]. unfold plus_if. rewrite O2. reflexivity. }
  apply cnt3_add; auto. intros r Hr. cbv zeta beta. rewrite VW, VG by auto. unfold shows.
  destruct (part per p r) as [q|] eqn:EP; unfold sqdiff; cbn [fst snd].
  - fold (qn f q). destruct var; (split; [ring|]; split; ring).
  - rewrite (mshow_none fm p r EP). destruct var; split; try ring; split; ring.
Qed.
End Win.

(** ** Whole calls *)

Lemma assert_true : forall asrt b, b = true -> assertb asrt b = Ok tt.
Proof. intros [] b ->; reflexivity. Qed.

Lemma shape_eqb_refl : forall s, shape_eqb s s = true.
Proof. induction s as [|x s IH]; [reflexivity|]. cbn [shape_eqb]. rewrite Z.eqb_refl. auto. Qed.

Lemma binary_ok : forall m, (forall x, In x (i_vals m) -> x = 0 \/ x = 1) -> binary m = true.
Proof.
  intros m H. unfold binary. apply forallb_forall. intros x Hx. destruct (H x Hx) as [->| ->]; reflexivity.
Qed.

Lemma to3_ok : forall A (f : img A) n0 n1 n2, shape3 (i_shape f) = Ok (n0, n1, n2) -> to3 f = Ok (mkarr n0 n1 n2 (i_vals f)).
Proof. intros A f n0 n1 n2 H. unfold to3, atleast_3d. rewrite H. reflexivity. Qed.

Definition before (asrt : bool) (s : stat) (per var : bool) (roi : list Z) (k0 k1 k2 : Z) (e : ens) : Prop :=
  okE per var roi k0 k1 k2 e /\ (asrt = true -> unlocked e s = true).

Lemma before_assert : forall asrt s per var roi k0 k1 k2 e, before asrt s per var roi k0 k1 k2 e -> assertb asrt (unlocked e s) = Ok tt.
Proof. intros [] s per var roi k0 k1 k2 e [_ H]; [rewrite H; auto|reflexivity]. Qed.

Lemma roi_ok_ok : forall per var roi k0 k1 k2 e, okE per var roi k0 k1 k2 e -> 1 <= k0 -> 1 <= k1 -> 1 <= k2 -> roi_ok e = Ok tt.
Proof.
  intros per var roi k0 k1 k2 e [_ _ _ (E0 & E1 & E2 & _) _ _] H0 H1 H2. unfold roi_ok. rewrite E0, E1, E2.
  replace (k0 <? 1) with false by lia. replace (k1 <? 1) with false by lia. replace (k2 <? 1) with false by lia. reflexivity.
Qed.

(** Start: set the statistic, then go on. *)
Lemma lin_start : forall asrt s per var roi k0 k1 k2 pt D,
  lin vecE (ixE k0 k1 k2) (okS s per var roi k0 k1 k2) (okS s per var roi k0 k1 k2) pt (Ok D) ->
  lin vecE (ixE k0 k1 k2) (before asrt s per var roi k0 k1 k2) (okS s per var roi k0 k1 k2) (fun e => pt (set_stat e s)) (Ok D).
Proof.
  intros asrt s per var roi k0 k1 k2 pt D H e [HO _]. destruct (H (set_stat e s) (ok_set_stat _ _ _ _ _ _ _ _ HO)) as (e' & A & B & C).
  exists e'. auto.
Qed.

(** The shapes of a call. *)
Record dims3 (per : bool) (roi shape : list Z) (n0 n1 n2 k0 k1 k2 : Z) : Prop := mkdims3 {
  D_len : length roi = length shape; D_rank : (length shape <= 3)%nat;
  D_n : shape3 shape = Ok (n0, n1, n2); D_k : shape3 roi = Ok (k0, k1, k2);
  D_pn : 1 <= n0 /\ 1 <= n1 /\ 1 <= n2; D_pk : 1 <= k0 < 2 ^ 62 /\ 1 <= k1 < 2 ^ 62 /\ 1 <= k2 < 2 ^ 62;
  D_fit : per = true -> k0 / 2 <= n0 /\ k1 / 2 <= n1 /\ k2 / 2 <= n2
}.

Lemma shapes_dims3 : forall per roi shape, shapes per roi shape -> exists n0 n1 n2 k0 k1 k2, dims3 per roi shape n0 n1 n2 k0 k1 k2.
Proof.
  intros per roi shape (HL & H3 & HK & HN & HF). destruct (shape3_len shape H3) as (n0 & n1 & n2 & E). destruct (shape3_len roi) as (k0 & k1 & k2 & EK); [lia|].
  exists n0, n1, n2, k0, k1, k2.
  assert (PK : 1 <= k0 < 2 ^ 62 /\ 1 <= k1 < 2 ^ 62 /\ 1 <= k2 < 2 ^ 62).
  { destruct roi as [|a [|b [|c [|d s]]]]; cbn [shape3] in EK; inversion EK; subst;
      repeat match goal with X : Forall _ (_ :: _) |- _ => inversion X; subst; clear X end; lia. }
  split; auto; [eapply shape3_pos; eauto|]. intros EP. specialize (HF EP).
  destruct shape as [|a [|b [|c [|d s]]]]; destruct roi as [|a' [|b' [|c' [|d' s']]]]; cbn [length] in HL; try discriminate;
    cbn [shape3] in E, EK; inversion E; inversion EK; subst; cbn [half_fits] in HF; try (split; [|split]); try lia; try (cbn; lia).
Qed.

Section Calls.
Variables (asrt per var : bool) (roi shape : list Z) (n0 n1 n2 k0 k1 k2 : Z).
Hypothesis HD : dims3 per roi shape n0 n1 n2 k0 k1 k2.

Notation SEEN fm gm r := (filter (seen shape (i_vals fm) (i_vals gm) (offset roi r)) (pairs per shape (offset roi r))).
Notation LIN s := (lin vecE (ixE k0 k1 k2) (before asrt s per var roi k0 k1 k2) (okS s per var roi k0 k1 k2)).

Lemma mask_bin : forall m, is_mask shape m -> bin n0 n1 n2 (i_vals m).
Proof. intros m [[Sm Lm] Bm]. split; auto. rewrite Lm. apply shape3_prod. apply HD. Qed.

Lemma image_len : forall A (f : img A), is_image shape f -> lenZ (i_vals f) = n0 * n1 * n2.
Proof. intros A f [Sf Lf]. rewrite Lf. apply shape3_prod. apply HD. Qed.

Ltac prelude :=
  repeat first
    [ rewrite shape_eqb_refl | rewrite Nat.eqb_refl
    | match goal with
      | H : is_mask _ ?m |- context [binary ?m] => rewrite (binary_ok m (proj2 H))
      | H : before _ _ _ _ _ _ _ _ ?e |- context [assertb _ (unlocked ?e _)] => rewrite (before_assert _ _ _ _ _ _ _ _ _ H)
      end
    | rewrite (assert_true asrt true eq_refl) | rewrite bind_Ok ].

Lemma sum_cnt : forall fm gm T r, bin n0 n1 n2 gm -> 0 <= r < k0 * k1 * k2 ->
  sum_over (zrange 0 (n0 * n1 * n2)) (fun p => cnt per n0 n1 n2 k0 k1 k2 fm gm T p r) =
  sum_over (filter (seen shape fm gm (offset roi r)) (pairs per shape (offset roi r))) T.
Proof.
  intros. destruct HD. rewrite <- (sum_seen per n0 n1 n2 k0 k1 k2) by auto. reflexivity.
Qed.

Definition tot3 (fm gm : list Z) (T1 T2 TN : Z * Z -> Qc) (i : comp * Z) : Qc :=
  sum_over (filter (seen shape fm gm (offset roi (snd i))) (pairs per shape (offset roi (snd i))))
           (match fst i with C_first => T1 | C_second => T2 | C_norm => TN end).

Lemma sum_cnt3 : forall fm gm T1 T2 TN i, bin n0 n1 n2 gm -> ixE k0 k1 k2 i ->
  sum_over (zrange 0 (n0 * n1 * n2)) (fun p => cnt3 per n0 n1 n2 k0 k1 k2 fm gm T1 T2 TN p i) = tot3 fm gm T1 T2 TN i.
Proof.
  intros fm gm T1 T2 TN [[] r] HB Hi; unfold ixE in Hi; unfold tot3; cbn [fst snd] in *; rewrite <- sum_cnt by auto; reflexivity.
Qed.

(** From positions to the whole image. *)
Lemma lin_positions : forall A (b : bool) (z : A) vals (F : arr A) s pt fm gm T1 T2 TN, padded n0 n1 n2 k0 k1 k2 b z vals F -> bin n0 n1 n2 gm ->
  (forall p, 0 <= p < n0 * n1 * n2 -> lin vecE (ixE k0 k1 k2) (okS s per var roi k0 k1 k2) (okS s per var roi k0 k1 k2)
     (fun e => pt e (wpos n1 n2 k0 k1 k2 p)) (Ok (cnt3 per n0 n1 n2 k0 k1 k2 fm gm T1 T2 TN p))) ->
  LIN s (fun e => foldM pt (positions (PW k0 k1 k2) F) (set_stat e s)) (Ok (tot3 fm gm T1 T2 TN)).
Proof.
  intros A b z vals F s pt fm gm T1 T2 TN HP HB HPT. apply (lin_start asrt s per var roi k0 k1 k2 (fun e => foldM pt (positions (PW k0 k1 k2) F) e)).
  rewrite (padded_pos n0 n1 n2 k0 k1 k2 (D_pn _ _ _ _ _ _ _ _ _ HD) _ _ _ _ _ HP).
  eapply lin_out; [intros i Hi; apply (sum_cnt3 fm gm T1 T2 TN i HB Hi)|].
  assert (E : forall e, foldM pt (map (wpos n1 n2 k0 k1 k2) (zrange 0 (n0 * n1 * n2))) e =
    foldM (fun e p => pt e (wpos n1 n2 k0 k1 k2 p)) (zrange 0 (n0 * n1 * n2)) e).
  { generalize (zrange 0 (n0 * n1 * n2)). induction l as [|x l IH]; intros e; [reflexivity|]. cbn [map foldM]. destruct (pt e _); cbn [bind]; auto. }
  eapply lin_ext; [intros e _; apply E|]. apply lin_fold_ok. intros p Hp. apply zrange_In in Hp. auto.
Qed.

Lemma S2_lin : forall f g fm gm, is_image shape f -> is_image shape g -> is_mask shape fm -> is_mask shape gm ->
  LIN S_S2 (fun e => S2 asrt e f g fm gm)
    (Ok (tot3 (i_vals fm) (i_vals gm) (fun pq => qn (i_vals f) (fst pq) * qn (i_vals g) (snd pq))%Qc (fun _ => 0%Qc) (fun _ => 1%Qc))).
Proof.
  intros f g fm gm Hf Hg Hfm Hgm. pose proof (mask_bin _ Hfm) as Bf. pose proof (mask_bin _ Hgm) as Bg.
  pose proof HD as [HL H3 HN HK PN PK HFit].
  destruct (pad_mode_ok per n0 n1 n2 k0 k1 k2 PN PK HFit _ 0%Qc (i_vals f)) as (F & EF & PF).
  destruct (pad_mode_ok per n0 n1 n2 k0 k1 k2 PN PK HFit _ 0%Qc (i_vals g)) as (G & EG & PG).
  pose proof (mask_padded per n0 n1 n2 k0 k1 k2 PN PK (i_vals fm)) as PFm. pose proof (mask_padded per n0 n1 n2 k0 k1 k2 PN PK (i_vals gm)) as PGm.
  eapply lin_ext.
  2: { eapply lin_positions; [exact PF|exact Bg|]. intros p Hp. eapply S2_point_lin with (shape := shape); eauto; try apply Bf; try apply Bg. }
  intros e HB. pose proof HB as [HO _]. unfold S2. destruct Hf as [Sf Lf]. destruct Hg as [Sg Lg]. pose proof Hfm as [[Sfm _] _]. pose proof Hgm as [[Sgm _] _].
  rewrite Sf, Sg, Sfm, Sgm, (ok_roi _ _ _ _ _ _ _ HO), HL, (roi_ok_ok _ _ _ _ _ _ _ HO) by lia. prelude. cbv zeta.
  rewrite (ok_pad _ _ _ _ _ _ _ HO), (ok_per _ _ _ _ _ _ _ HO), (pad_PW k0 k1 k2 PK).
  rewrite (to3_ok _ f n0 n1 n2), (to3_ok _ g n0 n1 n2), (to3_ok _ fm n0 n1 n2), (to3_ok _ gm n0 n1 n2) by congruence. rewrite !bind_Ok.
  rewrite EF, EG, !bind_Ok. reflexivity.
Qed.

Lemma C2_lin : forall f g fm gm, is_image shape f -> is_image shape g -> is_mask shape fm -> is_mask shape gm ->
  LIN S_C2 (fun e => C2 asrt e f g fm gm)
    (Ok (tot3 (i_vals fm) (i_vals gm)
           (fun pq => if same_label (i_vals f) (i_vals g) pq then 1%Qc else 0%Qc)
           (fun _ => 0%Qc) (fun _ => 1%Qc))).
Proof.
  intros f g fm gm Hf Hg Hfm Hgm. pose proof (mask_bin _ Hfm) as Bf. pose proof (mask_bin _ Hgm) as Bg.
  pose proof HD as [HL H3 HN HK PN PK HFit].
  destruct (pad_mode_ok per n0 n1 n2 k0 k1 k2 PN PK HFit _ 0 (i_vals f)) as (F & EF & PF).
  destruct (pad_mode_ok per n0 n1 n2 k0 k1 k2 PN PK HFit _ 0 (i_vals g)) as (G & EG & PG).
  pose proof (mask_padded per n0 n1 n2 k0 k1 k2 PN PK (i_vals fm)) as PFm. pose proof (mask_padded per n0 n1 n2 k0 k1 k2 PN PK (i_vals gm)) as PGm.
  eapply lin_ext.
  2: { eapply lin_positions; [exact PF|exact Bg|]. intros p Hp. eapply C2_point_lin with (shape := shape); eauto; try apply Bf; try apply Bg. }
  intros e HB. pose proof HB as [HO _]. unfold C2. destruct Hf as [Sf Lf]. destruct Hg as [Sg Lg]. pose proof Hfm as [[Sfm _] _]. pose proof Hgm as [[Sgm _] _].
  rewrite Sf, Sg, Sfm, Sgm, (ok_roi _ _ _ _ _ _ _ HO), HL, (roi_ok_ok _ _ _ _ _ _ _ HO) by lia. prelude. cbv zeta.
  rewrite (ok_pad _ _ _ _ _ _ _ HO), (ok_per _ _ _ _ _ _ _ HO), (pad_PW k0 k1 k2 PK).
  rewrite (to3_ok _ f n0 n1 n2), (to3_ok _ g n0 n1 n2), (to3_ok _ fm n0 n1 n2), (to3_ok _ gm n0 n1 n2) by congruence. rewrite !bind_Ok.
  rewrite EF, EG, !bind_Ok. reflexivity.
Qed.

Lemma W2_lin : forall w g gm, is_image shape w -> is_image shape g -> is_mask shape gm ->
  LIN S_W2 (fun e => W2 asrt e w g gm)
    (Ok (tot3 [] (i_vals gm) (fun pq => qn (i_vals w) (fst pq) * qn (i_vals g) (snd pq))%Qc (fun _ => 0%Qc) (fun pq => qn (i_vals w) (fst pq)))).
Proof.
  intros f g gm Hf Hg Hgm. pose proof (mask_bin _ Hgm) as Bg.
  pose proof HD as [HL H3 HN HK PN PK HFit].
  destruct (pad_mode_ok per n0 n1 n2 k0 k1 k2 PN PK HFit _ 0%Qc (i_vals f)) as (F & EF & PF).
  destruct (pad_mode_ok per n0 n1 n2 k0 k1 k2 PN PK HFit _ 0%Qc (i_vals g)) as (G & EG & PG).
  pose proof (mask_padded per n0 n1 n2 k0 k1 k2 PN PK (i_vals gm)) as PGm.
  eapply lin_ext.
  2: { eapply lin_positions; [exact PF|exact Bg|]. intros p Hp. eapply W2_point_lin with (shape := shape); eauto; try apply Bf; try apply Bg. }
  intros e HB. pose proof HB as [HO _]. unfold W2. destruct Hf as [Sf Lf]. destruct Hg as [Sg Lg]. pose proof Hgm as [[Sgm _] _].
  rewrite Sf, Sg, Sgm, (ok_roi _ _ _ _ _ _ _ HO), HL, (roi_ok_ok _ _ _ _ _ _ _ HO) by lia. prelude. cbv zeta.
  rewrite (ok_pad _ _ _ _ _ _ _ HO), (ok_per _ _ _ _ _ _ _ HO), (pad_PW k0 k1 k2 PK).
  rewrite (to3_ok _ f n0 n1 n2), (to3_ok _ g n0 n1 n2), (to3_ok _ gm n0 n1 n2) by congruence. rewrite !bind_Ok.
  rewrite EF, EG, !bind_Ok. reflexivity.
Qed.

Lemma hh_lin : forall f fm, is_image shape f -> is_mask shape fm ->
  LIN S_heightheight (fun e => heightheight asrt e f fm)
    (Ok (tot3 (i_vals fm) (i_vals fm) (sqdiff (i_vals f))
           (fun pq => if var then (sqdiff (i_vals f) pq * sqdiff (i_vals f) pq)%Qc else 0%Qc) (fun _ => 1%Qc))).
Proof.
  intros f fm Hf Hfm. pose proof (mask_bin _ Hfm) as Bf.
  pose proof HD as [HL H3 HN HK PN PK HFit].
  destruct (pad_mode_ok per n0 n1 n2 k0 k1 k2 PN PK HFit _ 0%Qc (i_vals f)) as (F & EF & PF).
  pose proof (mask_padded per n0 n1 n2 k0 k1 k2 PN PK (i_vals fm)) as PFm.
  eapply lin_ext.
  2: { eapply lin_positions; [exact PF|exact Bf|]. intros p Hp. eapply hh_point_lin with (shape := shape); eauto; try apply Bf; try apply Bg. }
  intros e HB. pose proof HB as [HO _]. unfold heightheight. destruct Hf as [Sf Lf]. pose proof Hfm as [[Sfm _] _].
  rewrite Sf, Sfm, (ok_roi _ _ _ _ _ _ _ HO), HL, (roi_ok_ok _ _ _ _ _ _ _ HO) by lia. prelude. cbv zeta.
  rewrite (ok_pad _ _ _ _ _ _ _ HO), (ok_per _ _ _ _ _ _ _ HO), (pad_PW k0 k1 k2 PK).
  rewrite (to3_ok _ f n0 n1 n2), (to3_ok _ fm n0 n1 n2) by congruence. rewrite !bind_Ok.
  rewrite EF, !bind_Ok. reflexivity.
Qed.
End Calls.
