(** * CenterRefute: what is false of centers, and concrete cases (proofs only) *)

From Coq Require Import ZArith List Bool Reals Lra Lia.
From Verif Require Import Base Center SpecCenter CenterProofs CenterTop.
Import ListNotations.
Open Scope R_scope.

Lemma cos_half : cos (2 * PI * 2 / 4) = -1.
Proof. replace (2 * PI * 2 / 4) with PI by field. exact cos_PI. Qed.
Lemma sin_half : sin (2 * PI * 2 / 4) = 0.
Proof. replace (2 * PI * 2 / 4) with PI by field. exact sin_PI. Qed.
Lemma cos_quarter : cos (2 * PI * 1 / 4) = 0.
Proof. replace (2 * PI * 1 / 4) with (PI / 2) by field. exact cos_PI2. Qed.
Lemma sin_quarter : sin (2 * PI * 1 / 4) = 1.
Proof. replace (2 * PI * 1 / 4) with (PI / 2) by field. exact sin_PI2. Qed.
Lemma cos_three : cos (2 * PI * 3 / 4) = 0.
Proof. replace (2 * PI * 3 / 4) with (PI / 2 + PI) by field. rewrite neg_cos, cos_PI2. ring. Qed.
Lemma sin_three : sin (2 * PI * 3 / 4) = -1.
Proof. replace (2 * PI * 3 / 4) with (PI / 2 + PI) by field. rewrite neg_sin, sin_PI2. ring. Qed.

Lemma atan2_zero : forall y x, y = 0 -> x = 0 -> atan2_num true y x = - PI.
Proof.
  intros y x -> ->. unfold atan2_num. destruct (Rlt_dec 0 0); [lra|]. destruct (Rlt_dec 0 0); lra.
Qed.

Lemma balanced_center : forall ps, fit [4] ps -> ps <> [] -> balanced 4 0 (unit_mass ps) ->
  exists r, center [4] ps true = Ok r /\ at_axis r 0 0.
Proof.
  intros ps F N [C S].
  destruct (center_runs [4] ps true F N) as (r & E & L & A). exists r. split; [assumption|].
  unfold at_axis. rewrite A by (cbn; lia). unfold side. cbn [nth].
  rewrite axis_mass_num; [|lra|apply Rgt_not_eq, unit_pos, N]. rewrite minus_unit, C, S. do 2 f_equal.
  assert (W := unit_pos ps N). set (V := total snd (unit_mass ps)) in *.
  rewrite atan2_zero by (field; lra). field. apply Rgt_not_eq, PI_RGT_0.
Qed.

(** Two opposite positions: the center is 0 wherever they are. *)
Lemma translation_balanced :
  exists shape ps ps' t r r' c c', fit shape ps /\ ps <> [] /\ Forall2 (displaced t) ps ps' /\
    0 < side shape 0 /\
    center shape ps true = Ok r /\ center shape ps' true = Ok r' /\ at_axis r 0 c /\ at_axis r' 0 c' /\
    ~ same_point (side shape 0) (c + t 0%nat) c'.
Proof.
  exists [4], [[0]; [2]], [[1]; [3]], (fun _ => 1).
  assert (F : fit [4] [[0]; [2]]) by (intros p [<-|[<-|[]]]; reflexivity).
  assert (F' : fit [4] [[1]; [3]]) by (intros p [<-|[<-|[]]]; reflexivity).
  assert (Z : 2 * PI * 0 / 4 = 0) by field.
  destruct (balanced_center [[0]; [2]] F ltac:(discriminate)) as (r & E & A).
  { split; unfold sum_cos, sum_sin, unit_mass, coordinate; cbn [map total fst snd nth].
    - rewrite Z, cos_0, cos_half. ring.
    - rewrite Z, sin_0, sin_half. ring. }
  destruct (balanced_center [[1]; [3]] F' ltac:(discriminate)) as (r' & E' & A').
  { split; unfold sum_cos, sum_sin, unit_mass, coordinate; cbn [map total fst snd nth].
    - rewrite cos_quarter, cos_three. ring.
    - rewrite sin_quarter, sin_three. ring. }
  exists r, r', 0, 0.
  split; [exact F|]. split; [discriminate|]. split.
  { repeat constructor; intros [|k] Hk; cbn in Hk; try lia; unfold coordinate; cbn [nth]; lra. }
  split; [unfold side; cbn; lra|]. repeat (split; [assumption|]).
  intros [m M]. unfold side in M. cbn [nth] in M.
  assert (4 * IZR m = -1) by lra. rewrite <- mult_IZR in H. apply eq_IZR in H. lia.
Qed.

(** ** Concrete cases *)
Lemma case_mean : center [4; 6] [[1; 2]; [3; 5]] false = Ok [Num 2; Num (7 / 2)].
Proof.
  unfold center. cbn [rows_fit forallb length Nat.eqb andb negb no_positions all_axes].
  unfold axis_center, column, mean_of, quotient, rsum. cbn [negb map nth length fold_right].
  replace (INR 2) with 2 by (cbn; lra). destruct (Req_EM_T 2 0); [lra|].
  apply f_equal, (f_equal2 cons); [|apply (f_equal2 cons); [|reflexivity]]; apply f_equal; lra.
Qed.

Lemma case_mass : center_of_mass [4; 6] [[1; 2]; [3; 5]] [1; 3] false = Ok [Num (5 / 2); Num (17 / 4)].
Proof.
  unfold center_of_mass. cbn [rows_fit forallb length Nat.eqb andb negb no_positions all_axes].
  unfold axis_center, column, average_of, quotient, rsum. cbn [negb map nth length fold_right rmap2].
  destruct (Req_EM_T (1 + (3 + 0)) 0); [lra|].
  apply f_equal, (f_equal2 cons); [|apply (f_equal2 cons); [|reflexivity]]; apply f_equal; lra.
Qed.

(** Two positions on either side of the boundary. *)
Lemma case_wrap : center [8] [[7]; [1]] true = Ok [Num 0] /\ ~ balanced 8 0 (unit_mass [[7]; [1]]).
Proof.
  assert (F : fit [8] [[7]; [1]]) by (intros p [<-|[<-|[]]]; reflexivity).
  assert (Q : 0 < cos (PI / 4)) by (apply cos_gt_0; assert (P := PI_RGT_0); lra).
  assert (A7 : 2 * PI * 7 / 8 = - (PI / 4) + IZR 1 * (2 * PI)) by field.
  assert (A1 : 2 * PI * 1 / 8 = PI / 4) by field.
  assert (C : sum_cos 8 0 (unit_mass [[7]; [1]]) = 2 * cos (PI / 4)).
  { unfold sum_cos, unit_mass, coordinate. cbn [map total fst snd nth].
    rewrite A7, A1, cos_turn, cos_neg. ring. }
  assert (S : sum_sin 8 0 (unit_mass [[7]; [1]]) = 0).
  { unfold sum_sin, unit_mass, coordinate. cbn [map total fst snd nth].
    rewrite A7, A1, sin_turn, sin_antisym. ring. }
  split; [|intros [B _]; rewrite C in B; lra].
  destruct (center_runs [8] [[7]; [1]] true F ltac:(discriminate)) as (r & E & L & A).
  rewrite E. f_equal. apply nth_error_ext_len; [assumption|]. rewrite L. cbn [length]. intros k Hk.
  assert (k = 0%nat) by lia. subst k. rewrite A by (cbn; lia). unfold side. cbn [nth nth_error].
  rewrite axis_mass_num; [|lra|apply Rgt_not_eq, unit_pos; discriminate].
  rewrite minus_unit, C, S, unit_total. cbn [length]. replace (INR 2) with 2 by (cbn; lra).
  replace (- (0 / 2)) with 0 by field. replace (2 * cos (PI / 4) / 2) with (cos (PI / 4)) by field.
  unfold atan2_num. destruct (Rlt_dec 0 (- cos (PI / 4))); [lra|].
  destruct (Rlt_dec (- cos (PI / 4)) 0); [|lra]. destruct (Rlt_dec 0 0); [lra|]. do 2 f_equal.
  field. apply Rgt_not_eq, PI_RGT_0.
Qed.

(** A position at 0: weight -1 gives the other end of the box. *)
Lemma negative_weight : exists shape ps w, fit shape ps /\ w <> 0 /\
  center_of_mass shape ps (repeat w (length ps)) true <> center shape ps true.
Proof.
  exists [8], [[0]], (-1). split; [intros p [<-|[]]; reflexivity|]. split; [lra|].
  assert (F : fit [8] [[0]]) by (intros p [<-|[]]; reflexivity).
  assert (Z : 2 * PI * 0 / 8 = 0) by field. assert (P := PI_RGT_0).
  destruct (center_runs [8] [[0]] true F ltac:(discriminate)) as (r & E & _ & A).
  destruct (mass_runs [8] [([0], -1)] true F ltac:(discriminate)) as (r' & E' & _ & A').
  specialize (A 0%nat ltac:(cbn; lia)). specialize (A' 0%nat ltac:(cbn; lia)).
  unfold side in A, A'. cbn [nth] in A, A'.
  rewrite axis_mass_num in A; [|lra|apply Rgt_not_eq, unit_pos; discriminate].
  rewrite axis_mass_num in A' by (cbn; lra).
  intro H. cbn [length repeat] in H. cbn [map fst snd] in E'. rewrite E, E' in H. assert (H' : r' = r) by congruence.
  rewrite H', A in A'. clear H H' E E' A. rewrite minus_unit in A'.
  unfold minus_of, unit_mass, sum_cos, sum_sin, coordinate in A'. cbn [map total fst snd nth] in A'.
  rewrite Z, cos_0, sin_0 in A'.
  destruct (Rlt_dec (-1 + 0) 0) as [_|D]; [|lra].
  replace (- ((1 * 0 + 0) / (1 + 0))) with 0 in A' by field.
  replace (- ((1 * 1 + 0) / (1 + 0))) with (-1) in A' by field.
  replace (- ((-1 * 0 + 0) / (-1 + 0))) with 0 in A' by field.
  replace (- ((-1 * 1 + 0) / (-1 + 0))) with (-1) in A' by field.
  unfold atan2_num in A'. destruct (Rlt_dec 0 (-1)); [lra|]. destruct (Rlt_dec (-1) 0); [|lra].
  destruct (Rlt_dec 0 0); [lra|]. injection A' as A'.
  assert (X : 8 * (- PI + PI) / (2 * PI) = 0) by (field; lra).
  assert (Y : 8 * (PI + PI) / (2 * PI) = 8) by (field; lra). lra.
Qed.

(** Opposite weights. *)
Lemma case_cancel : total snd [([1], 1); ([4], -1)] = 0 /\
  0 < sum_sin 8 0 [([1], 1); ([4], -1)] /\ 0 < sum_cos 8 0 [([1], 1); ([4], -1)].
Proof.
  assert (P := PI_RGT_0).
  split; [cbn; lra|]. unfold sum_sin, sum_cos, coordinate. cbn [total fst snd nth].
  replace (2 * PI * 4 / 8) with PI by field. replace (2 * PI * 1 / 8) with (PI / 4) by field.
  rewrite sin_PI, cos_PI.
  assert (0 < sin (PI / 4)) by (apply sin_gt_0; lra). assert (0 < cos (PI / 4)) by (apply cos_gt_0; lra). lra.
Qed.
