(** * CenterTop: the statements about centers, proved *)

From Coq Require Import ZArith List Bool Reals Lra Lia Permutation.
From Verif Require Import Base BaseLemmas Cluster SpecCluster ClusterGeom KernelProofs Center SpecCenter CenterProofs.
Import ListNotations.
Open Scope R_scope.

Lemma unit_fst : forall ps, map fst (unit_mass ps) = ps.
Proof. intros. unfold unit_mass. rewrite map_map. apply map_id. Qed.

Lemma unit_total : forall ps, total snd (unit_mass ps) = INR (length ps).
Proof. intros. unfold unit_mass. rewrite total_map. apply total_one. Qed.

Lemma unit_pos : forall ps, ps <> [] -> 0 < total snd (unit_mass ps).
Proof. intros [|p ps] H; [congruence|]. rewrite unit_total. apply lt_0_INR. cbn. lia. Qed.

(** ** Not periodic *)
Lemma wavg_bounds : forall f (l : list mass) c lo hi, (forall m, In m l -> 0 <= snd m) -> 0 < total snd l ->
  wavg f l = Num c -> (forall m, In m l -> snd m <> 0 -> lo <= f (fst m) <= hi) -> lo <= c <= hi.
Proof.
  intros f l c lo hi W0 W E B. rewrite wavg_num in E by lra. injection E as E. subst c.
  assert (L : lo * total snd l <= total (fun m => snd m * f (fst m)) l).
  { rewrite <- total_scal. apply total_le. intros m Hm. rewrite Rmult_comm.
    destruct (Req_EM_T (snd m) 0) as [Z|Z]; [rewrite Z; lra|].
    apply Rmult_le_compat_l; [now apply W0|]. now apply B. }
  assert (H : total (fun m => snd m * f (fst m)) l <= hi * total snd l).
  { rewrite <- total_scal. apply total_le. intros m Hm. rewrite (Rmult_comm hi).
    destruct (Req_EM_T (snd m) 0) as [Z|Z]; [rewrite Z; lra|].
    apply Rmult_le_compat_l; [now apply W0|]. now apply B. }
  set (T := total (fun m => snd m * f (fst m)) l) in *. set (V := total snd l) in *.
  split; apply (Rmult_le_reg_r V); try assumption; replace (T / V * V) with T by (field; lra); assumption.
Qed.

Lemma mass_mean : forall shape (l : list mass) k, fit shape (map fst l) -> total snd l <> 0 -> (k < length shape)%nat ->
  exists r c, center_of_mass shape (map fst l) (map snd l) false = Ok r /\ length r = length shape /\
    at_axis r k c /\
    c * total snd l = total (fun m => snd m * coordinate k (fst m)) l /\
    forall lo hi, (forall m, In m l -> 0 <= snd m) ->
      (forall m, In m l -> snd m <> 0 -> lo <= coordinate k (fst m) <= hi) -> lo <= c <= hi.
Proof.
  intros shape l k F W K. assert (N : l <> []) by (intro; subst; apply W; reflexivity).
  destruct (mass_runs shape l false F N) as (r & E & L & A). specialize (A k K).
  unfold axis_mass in A. cbn [negb] in A.
  assert (V := wavg_num (coordinate k) l W).
  exists r, (total (fun m => snd m * coordinate k (fst m)) l / total snd l).
  repeat split; auto.
  - unfold at_axis. rewrite A, V. reflexivity.
  - field. assumption.
  - refine (proj1 (wavg_bounds (coordinate k) l _ lo hi H _ V H0)).
    assert (G : 0 <= total snd l) by (apply total_nonneg; assumption).
    destruct G as [G|G]; [exact G|symmetry in G; contradiction].
  - refine (proj2 (wavg_bounds (coordinate k) l _ lo hi H _ V H0)).
    assert (G : 0 <= total snd l) by (apply total_nonneg; assumption).
    destruct G as [G|G]; [exact G|symmetry in G; contradiction].
Qed.

Lemma center_mean : forall shape ps k, fit shape ps -> ps <> [] -> (k < length shape)%nat ->
  exists r c, center shape ps false = Ok r /\ length r = length shape /\ at_axis r k c /\
    c * INR (length ps) = total (coordinate k) ps /\
    forall lo hi, (forall p, In p ps -> lo <= coordinate k p <= hi) -> lo <= c <= hi.
Proof.
  intros shape ps k F N K.
  destruct (center_runs shape ps false F N) as (r & E & L & A). specialize (A k K).
  unfold axis_mass in A. cbn [negb] in A. assert (W := unit_pos ps N).
  assert (V := wavg_num (coordinate k) (unit_mass ps) (Rgt_not_eq _ _ W)).
  assert (T : total (fun m => snd m * coordinate k (fst m)) (unit_mass ps) = total (coordinate k) ps).
  { unfold unit_mass. rewrite total_map. apply total_ext. intros. cbn [fst snd]. ring. }
  rewrite unit_total in *. rewrite T in V.
  exists r, (total (coordinate k) ps / INR (length ps)).
  split; [exact E|]. split; [exact L|]. split; [unfold at_axis; now rewrite A, V|].
  split; [field; lra|]. intros lo hi B.
  apply (wavg_bounds (coordinate k) (unit_mass ps)).
  - intros m Hm. apply in_map_iff in Hm. destruct Hm as (p & <- & _). cbn. lra.
  - now rewrite unit_total.
  - exact V.
  - intros m Hm _. apply in_map_iff in Hm. destruct Hm as (p & <- & Hp). cbn. now apply B.
Qed.

(** ** Weights *)
Lemma scaled_total : forall w (l : list mass), total snd (map (fun m => (fst m, w * snd m)) l) = w * total snd l.
Proof. intros w l. rewrite total_map. cbn. apply total_scal. Qed.

Lemma wavg_scale : forall f w (l : list mass), 0 < w ->
  wavg f (map (fun m => (fst m, w * snd m)) l) = wavg f l.
Proof.
  intros f w l H. unfold wavg, quotient. rewrite scaled_total, total_map. cbn.
  rewrite (total_ext (fun a : mass => w * snd a * f (fst a)) (fun a => w * (snd a * f (fst a)))) by (intros; ring).
  rewrite !total_scal. set (V := total snd l). set (X := total (fun a : mass => snd a * f (fst a)) l).
  assert (P : 0 < X <-> 0 < w * X).
  { split; intro; [now apply Rmult_lt_0_compat|]. apply (Rmult_lt_reg_l w); lra. }
  assert (Q : X < 0 <-> w * X < 0).
  { split; intro; [rewrite <- (Rmult_0_r w); now apply Rmult_lt_compat_l|]. apply (Rmult_lt_reg_l w); lra. }
  destruct (Req_EM_T V 0) as [Z|Z].
  - rewrite Z, Rmult_0_r. destruct (Req_EM_T 0 0); [|contradiction].
    change (total (fun m : list R * R => snd m * f (fst m)) l) with X.
    destruct (Rlt_dec 0 X), (Rlt_dec 0 (w * X)), (Rlt_dec X 0), (Rlt_dec (w * X) 0); reflexivity || tauto.
  - destruct (Req_EM_T (w * V) 0) as [Y|Y].
    + apply Rmult_integral in Y. destruct Y; [lra|contradiction].
    + change (total (fun m : list R * R => snd m * f (fst m)) l) with X. apply f_equal. field. split; [assumption|lra].
Qed.

Lemma minus_scale : forall w (l : list mass), 0 < w -> minus_of (map (fun m => (fst m, w * snd m)) l) = minus_of l.
Proof.
  intros w l H. unfold minus_of. rewrite scaled_total. set (V := total snd l).
  assert (Q : V < 0 <-> w * V < 0).
  { split; intro; [rewrite <- (Rmult_0_r w); now apply Rmult_lt_compat_l|]. apply (Rmult_lt_reg_l w); lra. }
  destruct (Rlt_dec V 0), (Rlt_dec (w * V) 0); reflexivity || tauto.
Qed.

Lemma axis_mass_wavg : forall per len k l l', minus_of l = minus_of l' -> (forall f, wavg f l = wavg f l') ->
  axis_mass per len k l = axis_mass per len k l'.
Proof. intros per len k l l' M H. unfold axis_mass. now rewrite !H, M. Qed.

Lemma mass_ext : forall shape (l l' : list mass) per, fit shape (map fst l) -> fit shape (map fst l') ->
  l <> [] -> l' <> [] ->
  (forall k, (k < length shape)%nat -> axis_mass per (side shape k) k l = axis_mass per (side shape k) k l') ->
  center_of_mass shape (map fst l) (map snd l) per = center_of_mass shape (map fst l') (map snd l') per.
Proof.
  intros shape l l' per F F' N N' H.
  destruct (mass_runs shape l per F N) as (r & E & L & A).
  destruct (mass_runs shape l' per F' N') as (r' & E' & L' & A').
  rewrite E, E'. f_equal. apply nth_error_ext_len; [congruence|]. intros k Hk.
  rewrite A, A', H by congruence. reflexivity.
Qed.

Lemma mass_center_ext : forall shape (l : list mass) ps per, fit shape (map fst l) -> fit shape ps ->
  l <> [] -> ps <> [] ->
  (forall k, (k < length shape)%nat -> axis_mass per (side shape k) k l = axis_mass per (side shape k) k (unit_mass ps)) ->
  center_of_mass shape (map fst l) (map snd l) per = center shape ps per.
Proof.
  intros shape l ps per F F' N N' H.
  destruct (mass_runs shape l per F N) as (r & E & L & A).
  destruct (center_runs shape ps per F' N') as (r' & E' & L' & A').
  rewrite E, E'. f_equal. apply nth_error_ext_len; [congruence|]. intros k Hk.
  rewrite A, A', H by congruence. reflexivity.
Qed.

Lemma center_ext : forall shape ps ps' per, fit shape ps -> fit shape ps' -> ps <> [] -> ps' <> [] ->
  (forall k, (k < length shape)%nat ->
     axis_mass per (side shape k) k (unit_mass ps) = axis_mass per (side shape k) k (unit_mass ps')) ->
  center shape ps per = center shape ps' per.
Proof.
  intros shape l ps per F F' N N' H.
  destruct (center_runs shape l per F N) as (r & E & L & A).
  destruct (center_runs shape ps per F' N') as (r' & E' & L' & A').
  rewrite E, E'. f_equal. apply nth_error_ext_len; [congruence|]. intros k Hk.
  rewrite A, A', H by congruence. reflexivity.
Qed.

Lemma mass_scale : forall shape (l : list mass) w per, fit shape (map fst l) -> 0 < w ->
  center_of_mass shape (map fst l) (map (fun m => w * snd m) l) per
  = center_of_mass shape (map fst l) (map snd l) per.
Proof.
  intros shape l w per F W. destruct l as [|m l']; [now rewrite !mass_none|]. set (l := m :: l') in *.
  assert (E1 : map fst l = map fst (map (fun m : mass => (fst m, w * snd m)) l)) by now rewrite map_map.
  assert (E2 : map (fun m => w * snd m) l = map snd (map (fun m : mass => (fst m, w * snd m)) l)) by now rewrite map_map.
  rewrite E2. rewrite E1 at 1. apply mass_ext; try rewrite <- E1; auto; try discriminate.
  intros k _. apply axis_mass_wavg; [now apply minus_scale|]. intro f. now apply wavg_scale.
Qed.

Lemma mass_equal : forall shape ps w per, fit shape ps -> 0 < w ->
  center_of_mass shape ps (repeat w (length ps)) per = center shape ps per.
Proof.
  intros shape ps w per F W. destruct ps as [|p ps']; [now rewrite mass_none, center_none|].
  set (ps := p :: ps') in *.
  assert (E2 : repeat w (length ps) = map snd (map (fun m : mass => (fst m, w * snd m)) (unit_mass ps))).
  { unfold unit_mass. rewrite !map_map. cbn. clear. f_equal; [ring|].
    induction ps'; cbn; [reflexivity|]. f_equal; [ring|assumption]. }
  assert (E1 : ps = map fst (map (fun m : mass => (fst m, w * snd m)) (unit_mass ps))).
  { unfold unit_mass. rewrite !map_map. cbn. now rewrite map_id. }
  rewrite E2. etransitivity; [|apply (mass_center_ext shape (map (fun m : mass => (fst m, w * snd m)) (unit_mass ps)) ps per)].
  - now rewrite <- E1.
  - now rewrite <- E1.
  - assumption.
  - discriminate.
  - discriminate.
  - intros k _. apply axis_mass_wavg; [now apply minus_scale|]. intro f. now apply wavg_scale.
Qed.

(** Natural weights are repetitions. *)
Lemma wavg_repeat : forall f (l : list (list R * nat)),
  wavg f (unit_mass (flat_map (fun m => repeat (fst m) (snd m)) l))
  = wavg f (map (fun m => (fst m, INR (snd m))) l).
Proof.
  intros f l. unfold wavg, unit_mass. rewrite !total_map. cbn.
  assert (G : forall g : list R -> R, total g (flat_map (fun m => repeat (fst m) (snd m)) l)
                                    = total (fun m : list R * nat => INR (snd m) * g (fst m)) l).
  { intro g. induction l as [|m l IH]; cbn [flat_map total]; [reflexivity|].
    rewrite total_app, IH. f_equal. clear. induction (snd m) as [|n IH]; [cbn; lra|].
    cbn [repeat total]. rewrite IH, S_INR. lra. }
  rewrite (G (fun a => 1 * f a)), (G (fun _ => 1)). f_equal; apply total_ext; intros; ring.
Qed.

Lemma mass_repeat : forall shape (l : list (list R * nat)) per, fit shape (map fst l) ->
  (exists m, In m l /\ snd m <> 0%nat) ->
  center_of_mass shape (map fst l) (map (fun m => INR (snd m)) l) per
  = center shape (flat_map (fun m => repeat (fst m) (snd m)) l) per.
Proof.
  intros shape l per F (m0 & Hm0 & N0).
  set (l' := map (fun m : list R * nat => (fst m, INR (snd m)) : mass) l).
  assert (E1 : map fst l = map fst l') by (unfold l'; now rewrite map_map).
  assert (E2 : map (fun m => INR (snd m)) l = map snd l') by (unfold l'; now rewrite map_map).
  rewrite E1, E2.
  assert (M : forall p, In p (flat_map (fun m => repeat (fst m) (snd m)) l) -> In p (map fst l)).
  { intros p Hp. apply in_flat_map in Hp. destruct Hp as (m & Hm & Hp). apply repeat_spec in Hp. subst p.
    now apply in_map. }
  apply mass_center_ext.
  - now rewrite <- E1.
  - intros p Hp. apply F. now apply M.
  - unfold l'. destruct l; [destruct Hm0|discriminate].
  - assert (In (fst m0) (flat_map (fun m => repeat (fst m) (snd m)) l)).
    { apply in_flat_map. exists m0. split; [assumption|]. destruct (snd m0); [congruence|]. now left. }
    intro E. rewrite E in H. destruct H.
  - intros k _. apply axis_mass_wavg; [|intro f; symmetry; apply wavg_repeat].
    rewrite minus_unit. unfold minus_of. destruct (Rlt_dec (total snd l') 0) as [D|D]; [exfalso|reflexivity].
    assert (0 <= total snd l'); [|lra]. apply total_nonneg. intros m Hm. unfold l' in Hm. apply in_map_iff in Hm.
    destruct Hm as (x & <- & _). apply pos_INR.
Qed.

(** ** Periodic *)
Lemma mass_circular : forall shape (l : list mass) k, fit shape (map fst l) -> 0 < total snd l ->
  (k < length shape)%nat -> 0 < side shape k ->
  exists r c, center_of_mass shape (map fst l) (map snd l) true = Ok r /\ length r = length shape /\
    at_axis r k c /\ 0 <= c < side shape k /\ circular_mean (side shape k) k l c.
Proof.
  intros shape l k F W K S. assert (N : l <> []) by (intro; subst; cbn in W; lra).
  destruct (mass_runs shape l true F N) as (r & E & L & A). specialize (A k K).
  destruct (axis_mass_circular (side shape k) k l S W) as (c & V & B & C).
  exists r, c. unfold at_axis. rewrite A, V. auto.
Qed.

Lemma center_circular : forall shape ps k, fit shape ps -> ps <> [] -> (k < length shape)%nat -> 0 < side shape k ->
  exists r c, center shape ps true = Ok r /\ length r = length shape /\
    at_axis r k c /\ 0 <= c < side shape k /\ circular_mean (side shape k) k (unit_mass ps) c.
Proof.
  intros shape ps k F N K S.
  destruct (center_runs shape ps true F N) as (r & E & L & A). specialize (A k K).
  destruct (axis_mass_circular (side shape k) k (unit_mass ps) S (unit_pos ps N)) as (c & V & B & C).
  exists r, c. unfold at_axis. rewrite A, V. auto.
Qed.

Lemma at_axis_fun : forall r k c c', at_axis r k c -> at_axis r k c' -> c = c'.
Proof. unfold at_axis. congruence. Qed.

Lemma center_single : forall shape p k, length p = length shape -> (k < length shape)%nat ->
  0 < side shape k ->
  exists r c, center shape [p] true = Ok r /\ at_axis r k c /\ 0 <= c < side shape k /\
    same_point (side shape k) (coordinate k p) c.
Proof.
  intros shape p k LP K S.
  assert (F : fit shape [p]) by (intros q [<-|[]]; assumption).
  destruct (center_circular shape [p] k F ltac:(discriminate) K S) as (r & c & E & _ & A & B & C).
  exists r, c. split; [assumption|]. split; [assumption|]. split; [assumption|].
  apply (circular_mean_unique (side shape k) k (unit_mass [p])); try assumption.
  - intros [H1 H2]. unfold sum_cos, sum_sin, unit_mass in *. cbn [map total fst snd] in H1, H2.
    assert (T := sin2_cos2 (2 * PI * coordinate k p / side shape k)). unfold Rsqr in T.
    set (u := cos _) in *. set (v := sin _) in *.
    assert (u = 0) by lra. assert (v = 0) by lra. rewrite H, H0 in T. lra.
  - exists 1. unfold sum_cos, sum_sin, unit_mass. cbn [map total fst snd]. lra.
Qed.

Lemma Forall2_coord : forall {A B} (P : A -> B -> Prop) l l', Forall2 P l l' -> length l = length l'.
Proof. induction 1; cbn; congruence. Qed.

Lemma Forall2_sums : forall len k ps ps', len <> 0 ->
  Forall2 (fun p q => same_point len (coordinate k p) (coordinate k q)) ps ps' ->
  sum_cos len k (unit_mass ps) = sum_cos len k (unit_mass ps') /\
  sum_sin len k (unit_mass ps) = sum_sin len k (unit_mass ps').
Proof.
  intros len k ps ps' HL F. unfold sum_cos, sum_sin, unit_mass. rewrite !total_map. cbn [map total fst snd].
  induction F as [|p q l l' [m M] F [IH1 IH2]]; cbn [total]; [auto|]. rewrite IH1, IH2, M.
  replace (2 * PI * (coordinate k p + IZR m * len) / len)
    with (2 * PI * coordinate k p / len + IZR m * (2 * PI)) by (field; assumption).
  rewrite cos_turn, sin_turn. auto.
Qed.

Lemma center_wrapped : forall shape ps ps', fit shape ps -> Forall2 (wrapped shape) ps ps' ->
  center shape ps true = center shape ps' true.
Proof.
  intros shape ps ps' F W.
  assert (F' : fit shape ps').
  { clear -F W. induction W as [|p q l l' [L _] W IH]; intros x []; subst.
    - rewrite L. apply F. now left.
    - apply IH; [intros y Hy; apply F; now right|assumption]. }
  destruct ps as [|p ps]; [inversion W; reflexivity|].
  destruct ps' as [|q ps']; [inversion W|].
  apply center_ext; auto; try discriminate. intros k Hk.
  set (len := side shape k). destruct (Req_EM_T len 0) as [Z|Z].
  - unfold axis_mass. cbn [negb]. destruct (Req_EM_T len 0); [reflexivity|contradiction].
  - assert (W' : Forall2 (fun p q => same_point len (coordinate k p) (coordinate k q)) (p :: ps) (q :: ps')).
    { clear -W F Hk. revert F. induction W as [|a b l l' [L H] W IH]; intro F; constructor.
      - apply H. rewrite F by now left. assumption.
      - apply IH. intros x Hx. apply F. now right. }
    destruct (Forall2_sums len k _ _ Z W') as [C S].
    assert (NZ : forall (a : list R) l, total snd (unit_mass (a :: l)) <> 0).
    { intros a l. apply Rgt_not_eq, unit_pos. discriminate. }
    rewrite !axis_mass_num by auto. rewrite !minus_unit, C, S, !unit_total. now rewrite (Forall2_coord _ _ _ W).
Qed.

Lemma fit_perm : forall shape ps ps', Permutation ps ps' -> fit shape ps -> fit shape ps'.
Proof. intros shape ps ps' P F p Hp. apply F. eapply Permutation_in; [symmetry; eassumption|assumption]. Qed.

Lemma wavg_perm : forall f (l l' : list mass), Permutation l l' -> wavg f l = wavg f l'.
Proof. intros f l l' P. unfold wavg. f_equal; now apply total_perm. Qed.

Lemma perm_nonempty : forall {A} (l l' : list A), Permutation l l' -> l <> [] -> l' <> [].
Proof. intros A l l' P N E. subst. apply Permutation_sym, Permutation_nil in P. contradiction. Qed.

Lemma center_perm_fit : forall shape ps ps' per, fit shape ps -> Permutation ps ps' ->
  center shape ps per = center shape ps' per.
Proof.
  intros shape ps ps' per F P. destruct ps as [|p ps].
  - apply Permutation_nil in P. now subst.
  - apply center_ext; auto.
    + eapply fit_perm; eassumption.
    + discriminate.
    + eapply perm_nonempty; [eassumption|discriminate].
    + intros k _. apply axis_mass_wavg; [now rewrite !minus_unit|]. intro f. apply wavg_perm. now apply Permutation_map.
Qed.

Lemma rows_fit_perm : forall shape ps ps', Permutation ps ps' -> rows_fit shape ps = rows_fit shape ps'.
Proof.
  intros shape ps ps' P. apply Bool.eq_iff_eq_true. rewrite !rows_fit_iff.
  split; apply fit_perm; auto. now symmetry.
Qed.

Lemma center_perm : forall shape ps ps' per, Permutation ps ps' -> center shape ps per = center shape ps' per.
Proof.
  intros shape ps ps' per P. destruct (rows_fit shape ps) eqn:E.
  - apply rows_fit_iff in E. now apply center_perm_fit.
  - unfold center. rewrite <- (rows_fit_perm shape ps ps' P), E. reflexivity.
Qed.

Lemma mass_perm : forall shape (l l' : list mass) per, fit shape (map fst l) -> Permutation l l' ->
  center_of_mass shape (map fst l) (map snd l) per = center_of_mass shape (map fst l') (map snd l') per.
Proof.
  intros shape l l' per F P. destruct l as [|m l].
  - apply Permutation_nil in P. now subst.
  - apply mass_ext; auto.
    + eapply fit_perm; [|eassumption]. now apply Permutation_map.
    + discriminate.
    + eapply perm_nonempty; [eassumption|discriminate].
    + intros k _. apply axis_mass_wavg; [|intro f; now apply wavg_perm].
      unfold minus_of. now rewrite (total_perm snd _ _ P).
Qed.

Lemma unit_displaced : forall shape t k ps ps', fit shape ps -> (k < length shape)%nat ->
  Forall2 (displaced t) ps ps' ->
  Forall2 (fun m m' : mass => snd m' = snd m /\ coordinate k (fst m') = coordinate k (fst m) + t k)
    (unit_mass ps) (unit_mass ps').
Proof.
  intros shape t k ps ps' F K W. induction W as [|p q l l' [L H] W IH]; cbn; constructor.
  - cbn. split; [reflexivity|]. apply H. rewrite F by now left. assumption.
  - apply IH. intros x Hx. apply F. now right.
Qed.

Lemma fit_displaced : forall shape t ps ps', fit shape ps -> Forall2 (displaced t) ps ps' -> fit shape ps'.
Proof.
  intros shape t ps ps' F W. induction W as [|p q l l' [L _] W IH]; intros x []; subst.
  - rewrite L. apply F. now left.
  - apply IH; [intros y Hy; apply F; now right|assumption].
Qed.

Lemma center_translate : forall shape ps ps' t k, fit shape ps -> ps <> [] -> Forall2 (displaced t) ps ps' ->
  (k < length shape)%nat -> 0 < side shape k -> ~ balanced (side shape k) k (unit_mass ps) ->
  exists r r' c c', center shape ps true = Ok r /\ center shape ps' true = Ok r' /\
    at_axis r k c /\ at_axis r' k c' /\ same_point (side shape k) (c + t k) c'.
Proof.
  intros shape ps ps' t k F N W K S NB.
  assert (N' : ps' <> []) by (intro; subst; inversion W; subst; contradiction).
  assert (F' := fit_displaced _ _ _ _ F W).
  destruct (center_circular shape ps k F N K S) as (r & c & E & _ & A & _ & C).
  destruct (center_circular shape ps' k F' N' K S) as (r' & c' & E' & _ & A' & _ & C').
  exists r, r', c, c'. repeat split; auto.
  assert (D := unit_displaced shape t k ps ps' F K W).
  apply (circular_mean_unique (side shape k) k (unit_mass ps')); auto.
  - intro B. apply NB. eapply balanced_turn; [|exact D|exact B]. lra.
  - eapply circular_mean_turn; [|exact D|exact C]. lra.
Qed.

Lemma center_translate_mean : forall shape ps ps' t k, fit shape ps -> ps <> [] -> Forall2 (displaced t) ps ps' ->
  (k < length shape)%nat ->
  exists r r' c c', center shape ps false = Ok r /\ center shape ps' false = Ok r' /\
    at_axis r k c /\ at_axis r' k c' /\ c' = c + t k.
Proof.
  intros shape ps ps' t k F N W K.
  assert (N' : ps' <> []) by (intro; subst; inversion W; subst; contradiction).
  assert (F' := fit_displaced _ _ _ _ F W).
  destruct (center_mean shape ps k F N K) as (r & c & E & _ & A & M & _).
  destruct (center_mean shape ps' k F' N' K) as (r' & c' & E' & _ & A' & M' & _).
  exists r, r', c, c'. repeat split; auto.
  assert (L := Forall2_coord _ _ _ W).
  assert (P : 0 < INR (length ps)) by (rewrite <- unit_total; now apply unit_pos).
  assert (T : total (coordinate k) ps' = total (coordinate k) ps + t k * INR (length ps)).
  { clear -W F K. induction W as [|p q l l' [L H] W IH]; cbn [total length]; [cbn; lra|].
    rewrite IH by (intros x Hx; apply F; now right).
    rewrite H by (rewrite F by (now left); assumption). rewrite S_INR. lra. }
  apply (Rmult_eq_reg_r (INR (length ps))); [|lra]. rewrite Rmult_plus_distr_r, M.
  rewrite <- L in M'. rewrite M'. exact T.
Qed.

Lemma mass_window : forall shape (l : list mass) k a b, fit shape (map fst l) ->
  (forall m, In m l -> 0 <= snd m) -> 0 < total snd l -> (k < length shape)%nat ->
  (forall m, In m l -> a <= coordinate k (fst m) <= b) -> b - a < side shape k / 2 ->
  exists r c c', center_of_mass shape (map fst l) (map snd l) true = Ok r /\ at_axis r k c /\
    same_point (side shape k) c c' /\ a <= c' <= b.
Proof.
  intros shape l k a b F W0 W K B H.
  assert (S : 0 < side shape k).
  { destruct l as [|m l]; [cbn in W; lra|]. specialize (B m (or_introl eq_refl)). lra. }
  destruct (mass_circular shape l k F W K S) as (r & c & E & _ & A & _ & C).
  destruct (circular_mean_window (side shape k) k l a b c S W0 W B H C) as [n Hn].
  exists r, c, (c + IZR n * side shape k). repeat split; auto; try lra. now exists n.
Qed.

Lemma center_window : forall shape ps k a b, fit shape ps -> ps <> [] -> (k < length shape)%nat ->
  (forall p, In p ps -> a <= coordinate k p <= b) -> b - a < side shape k / 2 ->
  exists r c c', center shape ps true = Ok r /\ at_axis r k c /\
    same_point (side shape k) c c' /\ a <= c' <= b.
Proof.
  intros shape ps k a b F N K B H.
  assert (S : 0 < side shape k).
  { destruct ps as [|m l]; [congruence|]. specialize (B m (or_introl eq_refl)). lra. }
  destruct (center_circular shape ps k F N K S) as (r & c & E & _ & A & _ & C).
  assert (I : forall m, In m (unit_mass ps) -> snd m = 1 /\ In (fst m) ps).
  { intros m Hm. apply in_map_iff in Hm. destruct Hm as (p & <- & Hp). auto. }
  destruct (circular_mean_window (side shape k) k (unit_mass ps) a b c S) as [n Hn]; auto.
  - intros m Hm. destruct (I m Hm) as [-> _]. lra.
  - now apply unit_pos.
  - intros m Hm. apply B. now apply I.
  - exists r, c, (c + IZR n * side shape k). repeat split; auto; try lra. now exists n.
Qed.

(** ** Negative weights *)
Lemma negated_sums : forall len k (l : list mass),
  sum_cos len k (negated l) = - sum_cos len k l /\ sum_sin len k (negated l) = - sum_sin len k l.
Proof.
  intros. unfold sum_cos, sum_sin, negated. rewrite !total_map. cbn [fst snd].
  split; (rewrite <- (Rmult_1_l (- _)), <- Ropp_mult_distr_r, Ropp_mult_distr_l, <- total_scal; apply total_ext;
    intros; ring).
Qed.

Lemma mass_negative : forall shape (l : list mass) k, fit shape (map fst l) -> total snd l < 0 ->
  (k < length shape)%nat -> 0 < side shape k ->
  exists r c, center_of_mass shape (map fst l) (map snd l) true = Ok r /\ length r = length shape /\
    at_axis r k c /\ 0 <= c <= side shape k /\ circular_mean (side shape k) k (negated l) c.
Proof.
  intros shape l k F W K S. assert (N : l <> []) by (intro; subst; cbn in W; lra).
  destruct (mass_runs shape l true F N) as (r & E & L & A). specialize (A k K).
  destruct (axis_mass_general (side shape k) k l S) as (c & rho & V & B & _ & Hr & C & Sn); [lra|].
  exists r, c. unfold at_axis. rewrite A, V. repeat (split; [solve [auto]|]).
  exists (- total snd l * rho). split; [apply Rmult_le_pos; lra|].
  destruct (negated_sums (side shape k) k l) as [-> ->]. rewrite C, Sn. split; ring.
Qed.

(** ** Weights that cancel *)
Lemma mass_cancel : forall shape (l : list mass) k, fit shape (map fst l) -> l <> [] -> total snd l = 0 ->
  (k < length shape)%nat -> 0 < side shape k ->
  exists r, center_of_mass shape (map fst l) (map snd l) true = Ok r /\ length r = length shape /\
    let C := sum_cos (side shape k) k l in
    let S := sum_sin (side shape k) k l in
    (0 < C -> 0 < S -> at_axis r k (side shape k / 8)) /\
    (C < 0 -> 0 < S -> at_axis r k (3 * side shape k / 8)) /\
    (C < 0 -> S < 0 -> at_axis r k (5 * side shape k / 8)) /\
    (0 < C -> S < 0 -> at_axis r k (7 * side shape k / 8)) /\
    (C = 0 \/ S = 0 -> nth_error r k = Some NaN).
Proof.
  intros shape l k F N W K HS.
  destruct (mass_runs shape l true F N) as (r & E & L & A). specialize (A k K).
  exists r. split; [assumption|]. split; [assumption|]. cbv zeta. unfold at_axis. rewrite A. clear A.
  set (len := side shape k) in *. unfold axis_mass. cbn [negb].
  destruct (Req_EM_T len 0) as [Z|_]; [lra|]. unfold wavg. fold (sum_cos len k l) (sum_sin len k l).
  set (C := sum_cos len k l). set (S := sum_sin len k l). unfold quotient. rewrite W.
  destruct (Req_EM_T 0 0) as [_|Z]; [|contradiction]. assert (P := PI_RGT_0).
  destruct (Rlt_dec 0 S), (Rlt_dec S 0), (Rlt_dec 0 C), (Rlt_dec C 0); try lra; cbn [opposite atan2 negb];
    repeat match goal with |- _ /\ _ => split end; intros; try lra; try reflexivity;
    apply f_equal, f_equal; field; lra.
Qed.

(** ** A negative factor *)
Lemma mass_scale_mean : forall shape (l : list mass) w, fit shape (map fst l) -> w <> 0 -> total snd l <> 0 ->
  center_of_mass shape (map fst l) (map (fun m => w * snd m) l) false
  = center_of_mass shape (map fst l) (map snd l) false.
Proof.
  intros shape l w F W T. assert (N : l <> []) by (intro; subst; apply T; reflexivity).
  assert (E1 : map fst l = map fst (map (fun m : mass => (fst m, w * snd m)) l)) by now rewrite map_map.
  assert (E2 : map (fun m => w * snd m) l = map snd (map (fun m : mass => (fst m, w * snd m)) l)) by now rewrite map_map.
  rewrite E2. rewrite E1 at 1. apply mass_ext; try rewrite <- E1; auto.
  { destruct l; [congruence|discriminate]. }
  intros k _. unfold axis_mass. cbn [negb]. rewrite !wavg_num; [|assumption|].
  - rewrite scaled_total, total_map. cbn. f_equal.
    rewrite (total_ext (fun a : mass => w * snd a * coordinate k (fst a)) (fun a => w * (snd a * coordinate k (fst a)))) by (intros; ring).
    rewrite total_scal. change (list R * R)%type with mass. field. auto.
  - rewrite scaled_total. apply Rmult_integral_contrapositive. auto.
Qed.

Lemma mass_scale_circular : forall shape (l : list mass) w k, fit shape (map fst l) -> w < 0 -> 0 < total snd l ->
  (k < length shape)%nat -> 0 < side shape k -> ~ balanced (side shape k) k l ->
  exists r r' c c', center_of_mass shape (map fst l) (map snd l) true = Ok r /\
    center_of_mass shape (map fst l) (map (fun m => w * snd m) l) true = Ok r' /\
    at_axis r k c /\ at_axis r' k c' /\ same_point (side shape k) c c'.
Proof.
  intros shape l w k F W T K S NB.
  assert (E1 : map fst l = map fst (map (fun m : mass => (fst m, w * snd m)) l)) by now rewrite map_map.
  assert (E2 : map (fun m => w * snd m) l = map snd (map (fun m : mass => (fst m, w * snd m)) l)) by now rewrite map_map.
  destruct (mass_circular shape l k F T K S) as (r & c & E & _ & A & _ & C).
  destruct (mass_negative shape (map (fun m : mass => (fst m, w * snd m)) l) k) as (r' & c' & E' & _ & A' & _ & C'); auto.
  - now rewrite <- E1.
  - rewrite scaled_total. rewrite <- (Rmult_0_l (total snd l)). now apply Rmult_lt_compat_r.
  - exists r, r', c, c'. rewrite <- E1, <- E2 in E'. repeat (split; [assumption|]).
    apply (circular_mean_unique (side shape k) k l); auto.
    destruct C' as (rho & Hr & C1 & C2). exists (rho / - w). split.
    + apply Rmult_le_pos; [assumption|]. apply Rlt_le, Rinv_0_lt_compat. lra.
    + assert (D : sum_cos (side shape k) k (negated (map (fun m : mass => (fst m, w * snd m)) l)) = - w * sum_cos (side shape k) k l /\
                  sum_sin (side shape k) k (negated (map (fun m : mass => (fst m, w * snd m)) l)) = - w * sum_sin (side shape k) k l).
      { unfold negated, sum_cos, sum_sin. rewrite !total_map. cbn [fst snd].
        split; rewrite <- total_scal; apply total_ext; intros; ring. }
      destruct D as [D1 D2]. rewrite D1 in C1. rewrite D2 in C2.
      split; (apply (Rmult_eq_reg_l (- w)); [|lra]); [rewrite C1|rewrite C2]; field; lra.
Qed.

(** One weight per position. *)
Lemma weights_match : forall shape ps w per, shape <> [] -> ps <> [] -> fit shape ps -> length w <> length ps ->
  center_of_mass shape ps w per = Throw.
Proof.
  intros shape ps w per NS NP F L. unfold center_of_mass. assert (R : rows_fit shape ps = true) by (apply forallb_forall; intros p Hp; apply Nat.eqb_eq, F, Hp).
  rewrite R. cbn [negb]. destruct shape; [congruence|]. destruct ps; [congruence|]. cbn [no_positions].
  apply Nat.eqb_neq in L. rewrite L. reflexivity.
Qed.
