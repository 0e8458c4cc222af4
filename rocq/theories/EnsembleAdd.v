(** * EnsembleAdd: every call is linear (proofs only) *)

From Coq Require Import ZArith QArith Qcanon List Bool Lia Permutation.
From Verif Require Import Base BaseLemmas SpecCluster Array3 Array3Lemmas Path SpecPath SpecDilate DilateTop Ensemble SpecEnsemble EnsembleSums EnsembleLin EnsembleWindow.
Import ListNotations.
Open Scope Z_scope.

(** Two arrays at once. *)
Definition vec2 (ab : arr Qc * arr Qc) (i : bool * Z) : Qc := if fst i then vecA (fst ab) (snd i) else vecA (snd ab) (snd i).
Definition ix2 (k0 k1 k2 : Z) (i : bool * Z) : Prop := 0 <= snd i < k0 * k1 * k2.
Definition dims2 (k0 k1 k2 : Z) (ab : arr Qc * arr Qc) : Prop := dims k0 k1 k2 (fst ab) /\ dims k0 k1 k2 (snd ab).

Section Add.
Variables (asrt per var : bool) (roi : list Z) (k0 k1 k2 : Z).
Hypothesis Kp : 0 <= k0 /\ 0 <= k1 /\ 0 <= k2.

Notation LA := (lin vecA (ixA k0 k1 k2) (dims k0 k1 k2) (dims k0 k1 k2)).
Notation L2 := (lin vec2 (ix2 k0 k1 k2) (dims2 k0 k1 k2) (dims2 k0 k1 k2)).
Notation LE s := (lin vecE (ixE k0 k1 k2) (okS s per var roi k0 k1 k2) (okS s per var roi k0 k1 k2)).
Notation LB s := (lin vecE (ixE k0 k1 k2) (before asrt s per var roi k0 k1 k2) (okS s per var roi k0 k1 k2)).

(** ** From arrays to ensembles *)

Lemma lift_ok : forall s f g Df Dg, LA f (Ok Df) -> LA g (Ok Dg) ->
  LE s (fun e => a <- f (e_first e) ;; c <- g (e_norm e) ;; Ok (set_data e a (e_second e) c))
     (Ok (fun i => match fst i with C_first => Df (snd i) | C_second => 0%Qc | C_norm => Dg (snd i) end)).
Proof.
  intros s f g Df Dg Hf Hg e HO. pose proof HO as [[_ _ _ D1 D2 D3] _]. destruct (Hf _ D1) as (a & EA & DA & VA). destruct (Hg _ D3) as (c & EC & DC & VC).
  exists (set_data e a (e_second e) c). rewrite EA, bind_Ok, EC, bind_Ok. split; auto. split; [apply ok_set_data; auto|].
  intros [[] r] Hr; unfold vecE; cbn [fst snd set_data e_first e_second e_norm]; [apply VA; exact Hr|ring|apply VC; exact Hr].
Qed.

Lemma lift_lin : forall s f g o1 o2, LA f o1 -> LA g o2 ->
  exists o, LE s (fun e => a <- f (e_first e) ;; c <- g (e_norm e) ;; Ok (set_data e a (e_second e) c)) o.
Proof.
  intros s f g o1 o2 Hf Hg. destruct o1 as [Df| | |].
  - destruct o2 as [Dg| | |]; [eexists; apply lift_ok; eauto|exists Throw|exists UB|exists NoFuel]; intros e HO; pose proof HO as [[_ _ _ D1 D2 D3] _];
      destruct (Hf _ D1) as (a & EA & DA & VA); rewrite EA, bind_Ok, (Hg _ D3); reflexivity.
  - exists Throw; intros e HO; pose proof HO as [[_ _ _ D1 D2 D3] _]; rewrite (Hf _ D1); reflexivity.
  - exists UB; intros e HO; pose proof HO as [[_ _ _ D1 D2 D3] _]; rewrite (Hf _ D1); reflexivity.
  - exists NoFuel; intros e HO; pose proof HO as [[_ _ _ D1 D2 D3] _]; rewrite (Hf _ D1); reflexivity.
Qed.

Lemma lift2_ok : forall s f D, L2 f (Ok D) ->
  LE s (fun e => fn <- f (e_first e, e_norm e) ;; Ok (set_data e (fst fn) (e_second e) (snd fn)))
     (Ok (fun i => match fst i with C_first => D (true, snd i) | C_second => 0%Qc | C_norm => D (false, snd i) end)).
Proof.
  intros s f D Hf e HO. pose proof HO as [[_ _ _ D1 D2 D3] _]. destruct (Hf (e_first e, e_norm e) (conj D1 D3)) as (fn & E & [DA DB] & V).
  exists (set_data e (fst fn) (e_second e) (snd fn)). rewrite E, bind_Ok. split; auto. split; [apply ok_set_data; auto|].
  intros [[] r] Hr; unfold vecE; cbn [fst snd set_data e_first e_second e_norm]; [exact (V (true, r) Hr)|ring|exact (V (false, r) Hr)].
Qed.

Lemma lift2_lin : forall s f o, L2 f o ->
  exists o, LE s (fun e => fn <- f (e_first e, e_norm e) ;; Ok (set_data e (fst fn) (e_second e) (snd fn))) o.
Proof.
  intros s f o Hf. destruct o as [D| | |]; [eexists; apply lift2_ok; eauto|exists Throw|exists UB|exists NoFuel];
    intros e HO; pose proof HO as [[_ _ _ D1 D2 D3] _]; rewrite (Hf (e_first e, e_norm e) (conj D1 D3)); reflexivity.
Qed.

(** ** Points of the windowed measures *)

Hypothesis K1 : 1 <= k0 /\ 1 <= k1 /\ 1 <= k2.

Lemma add_if : forall s b1 b2 b3 v1 v2 v3, exists o,
  LE s (fun e => Ok (set_data e (plus_if b1 (e_first e) v1) (plus_if b2 (e_second e) v2) (plus_if b3 (e_norm e) v3))) o.
Proof. intros. eexists. apply lin_set_data_if. auto. Qed.

Lemma S2_point_any : forall s P F G Fm Gm x, exists o, LE s (fun e => S2_point P F G Fm Gm e x) o.
Proof.
  intros. unfold S2_point. apply lin_const. intros m _. apply lin_if; [eexists; apply lin_ret|].
  apply lin_const. intros Gi _. apply lin_const. intros Gmw _. cbv zeta. apply lin_const. intros f _.
  destruct (add_if s (negb (Qceq_b f 0%Qc)) false true (fun a b c => f * Gi a b c * (1 - zq (Gmw a b c)))%Qc (fun _ _ _ => 0%Qc) (fun a b c => 1 - zq (Gmw a b c))%Qc) as [o H].
  exists o. eapply lin_ext; [|exact H]. intros e _. unfold plus_if. destruct (Qceq_b f 0%Qc); reflexivity.
Qed.

Lemma C2_point_any : forall s P F G Fm Gm x, exists o, LE s (fun e => C2_point P F G Fm Gm e x) o.
Proof.
  intros. unfold C2_point. apply lin_const. intros m _. apply lin_if; [eexists; apply lin_ret|].
  apply lin_const. intros Gi _. apply lin_const. intros Gmw _. cbv zeta. apply lin_const. intros f _.
  destruct (add_if s (negb (f =? 0)) false true (fun a b c => if f =? Gi a b c then (1 - zq (Gmw a b c))%Qc else 0%Qc) (fun _ _ _ => 0%Qc) (fun a b c => 1 - zq (Gmw a b c))%Qc) as [o H].
  exists o. eapply lin_ext; [|exact H]. intros e _. unfold plus_if. destruct (f =? 0); reflexivity.
Qed.

Lemma W2_point_any : forall s P F G Gm x, exists o, LE s (fun e => W2_point P F G Gm e x) o.
Proof.
  intros. unfold W2_point.
  apply lin_const. intros Gi _. apply lin_const. intros Gmw _. cbv zeta. apply lin_const. intros f _.
  destruct (add_if s (negb (Qceq_b f 0%Qc)) false true (fun a b c => f * Gi a b c * (1 - zq (Gmw a b c)))%Qc (fun _ _ _ => 0%Qc) (fun a b c => f * (1 - zq (Gmw a b c)))%Qc) as [o H].
  exists o. eapply lin_ext; [|exact H]. intros e _. unfold plus_if. destruct (Qceq_b f 0%Qc); reflexivity.
Qed.

Lemma hh_point_any : forall s P F Fm x, exists o, LE s (fun e => hh_point P F Fm e x) o.
Proof.
  intros. unfold hh_point. apply lin_const. intros m _. apply lin_if; [eexists; apply lin_ret|].
  apply lin_const. intros Fi _. apply lin_const. intros Fmw _. cbv zeta. apply lin_const. intros f _.
  destruct (add_if s true var true (fun a b c => (Fi a b c - f) * (Fi a b c - f) * (1 - zq (Fmw a b c)))%Qc
     (fun a b c => (Fi a b c - f) * (Fi a b c - f) * ((Fi a b c - f) * (Fi a b c - f)) * (1 - zq (Fmw a b c)))%Qc (fun a b c => 1 - zq (Fmw a b c))%Qc) as [o H].
  exists o. eapply lin_ext; [|exact H]. intros e [[_ O2 _ _ _ _] _]. unfold plus_if. rewrite O2. reflexivity.
Qed.

(** ** Walks along paths *)

Lemma L_walk_any : forall P F x rows, exists o, LA (fun a => L_walk P F x rows a) o.
Proof.
  intros P F x. induction rows as [|row rows IH]; [eexists; apply lin_ret|]. cbn [L_walk].
  destruct row as [|dh [|di [|dj [|z row]]]]; try (exists UB; intros a Ha; reflexivity).
  destruct x as [[h i] j]. destruct P as [[[p0 q0] [p1 q1]] [p2 q2]]. apply lin_const. intros v _. apply lin_if; [eexists; apply lin_ret|].
  destruct (lin_incr k0 k1 k2 (p0 + dh) (p1 + di) (p2 + dj) 1%Qc) as [o1 H1].
  eapply lin_seq with (f := fun a => incr a (p0 + dh) (p1 + di) (p2 + dj) 1%Qc) (g := fun a => L_walk (p0, q0, (p1, q1), (p2, q2)) F (h, i, j) rows a); eauto.
Qed.

Lemma L_norm_any : forall P size rows, exists o, LA (fun a => foldM (L_norm P size) rows a) o.
Proof.
  intros P size rows. apply lin_fold. intros row _. unfold L_norm. destruct row as [|dh [|di [|dj [|z row]]]]; try (exists UB; intros a Ha; reflexivity).
  destruct P as [[[p0 q0] [p1 q1]] [p2 q2]]. apply lin_incr.
Qed.

Definition the_fuel : nat := Z.to_nat (k0 + k1 + k2 + 1).
Lemma fuel_eq : forall e, okE per var roi k0 k1 k2 e -> path_fuel e = the_fuel.
Proof. intros e [_ _ _ (E0 & E1 & E2 & _) _ _]. unfold path_fuel. rewrite E0, E1, E2. reflexivity. Qed.

Lemma L_stamp_any : forall s P (F : arr Z) size mode st, exists o, LE s (fun e => L_stamp P F size mode e st) o.
Proof.
  intros s P F size mode st.
  assert (H : exists o, LE s (fun e => rows <- path the_fuel [0; 0; 0] st mode ;;
     a <- foldM (fun (first : arr Qc) x => L_walk P F x rows first) (positions P F) (e_first e) ;; c <- foldM (L_norm P size) rows (e_norm e) ;; Ok (set_data e a (e_second e) c)) o).
  { apply lin_const. intros rows _. destruct (L_norm_any P size rows) as [o2 H2].
    destruct (lin_fold vecA (ixA k0 k1 k2) _ (fun (first : arr Qc) x => L_walk P F x rows first) (dims k0 k1 k2) (positions P F)) as [o1 H1].
    { intros x _. apply L_walk_any. }
    apply (lift_lin s (fun a => foldM (fun (first : arr Qc) x => L_walk P F x rows first) (positions P F) a) (fun a => foldM (L_norm P size) rows a) o1 o2); auto. }
  destruct H as [o H]. exists o. eapply lin_ext; [|exact H]. intros e [HO _]. unfold L_stamp. rewrite (fuel_eq e HO). reflexivity.
Qed.

Lemma incr2_any : forall a b c v a' b' c' w, exists o, L2 (fun fn : arr Qc * arr Qc => n <- incr (snd fn) a b c v ;; f <- incr (fst fn) a' b' c' w ;; Ok (f, n)) o.
Proof.
  intros. destruct (lin_incr k0 k1 k2 a b c v) as [o1 H1]. destruct (lin_incr k0 k1 k2 a' b' c' w) as [o2 H2]. destruct o1 as [D1| | |].
  - destruct o2 as [D2| | |].
    + exists (Ok (fun i : bool * Z => if fst i then D2 (snd i) else D1 (snd i))). intros [f n] [Df Dn]. cbn [fst snd] in *.
      destruct (H1 n Dn) as (n' & En & Dn' & Vn). destruct (H2 f Df) as (f' & Ef & Df' & Vf). exists (f', n'). rewrite En, bind_Ok, Ef, bind_Ok.
      split; auto. split; [split; auto|]. intros [[] r] Hr; unfold vec2; cbn [fst snd]; auto.
    + exists Throw. intros [f n] [Df Dn]. cbn [fst snd] in *. destruct (H1 n Dn) as (n' & En & Dn' & Vn). rewrite En, bind_Ok, (H2 f Df). reflexivity.
    + exists UB. intros [f n] [Df Dn]. cbn [fst snd] in *. destruct (H1 n Dn) as (n' & En & Dn' & Vn). rewrite En, bind_Ok, (H2 f Df). reflexivity.
    + exists NoFuel. intros [f n] [Df Dn]. cbn [fst snd] in *. destruct (H1 n Dn) as (n' & En & Dn' & Vn). rewrite En, bind_Ok, (H2 f Df). reflexivity.
  - exists Throw. intros [f n] [Df Dn]. cbn [fst snd] in *. rewrite (H1 n Dn). reflexivity.
  - exists UB. intros [f n] [Df Dn]. cbn [fst snd] in *. rewrite (H1 n Dn). reflexivity.
  - exists NoFuel. intros [f n] [Df Dn]. cbn [fst snd] in *. rewrite (H1 n Dn). reflexivity.
Qed.

(** Reading a constant between the two writes. *)
Lemma incr2c_any : forall a b c v a' b' c' (x : res Qc), exists o,
  L2 (fun fn : arr Qc * arr Qc => n <- incr (snd fn) a b c v ;; w <- x ;; f <- incr (fst fn) a' b' c' w ;; Ok (f, n)) o.
Proof.
  intros. destruct x as [w| | |].
  - destruct (incr2_any a b c v a' b' c' w) as [o H]. exists o. eapply lin_ext; [|exact H]. intros fn _. reflexivity.
  - destruct (lin_incr k0 k1 k2 a b c v) as [o1 H1]. destruct o1 as [D1| | |]; [exists Throw|exists Throw|exists UB|exists NoFuel]; intros fn [Df Dn];
      [destruct (H1 _ Dn) as (n' & En & _); rewrite En; reflexivity|rewrite (H1 _ Dn); reflexivity|rewrite (H1 _ Dn); reflexivity|rewrite (H1 _ Dn); reflexivity].
  - destruct (lin_incr k0 k1 k2 a b c v) as [o1 H1]. destruct o1 as [D1| | |]; [exists UB|exists Throw|exists UB|exists NoFuel]; intros fn [Df Dn];
      [destruct (H1 _ Dn) as (n' & En & _); rewrite En; reflexivity|rewrite (H1 _ Dn); reflexivity|rewrite (H1 _ Dn); reflexivity|rewrite (H1 _ Dn); reflexivity].
  - destruct (lin_incr k0 k1 k2 a b c v) as [o1 H1]. destruct o1 as [D1| | |]; [exists NoFuel|exists Throw|exists UB|exists NoFuel]; intros fn [Df Dn];
      [destruct (H1 _ Dn) as (n' & En & _); rewrite En; reflexivity|rewrite (H1 _ Dn); reflexivity|rewrite (H1 _ Dn); reflexivity|rewrite (H1 _ Dn); reflexivity].
Qed.

Lemma W2c_walk_any : forall P C Fm F label x all rest q, exists o, L2 (fun fn => W2c_walk P C Fm F label x all rest q fn) o.
Proof.
  intros P C Fm F label x all. induction rest as [|row rest IH]; intros q; [eexists; apply lin_ret|]. cbn [W2c_walk].
  destruct row as [|dh [|di [|dj [|z row]]]]; try (exists UB; intros a Ha; reflexivity).
  destruct x as [[h i] j]. destruct P as [[[p0 q0] [p1 q1]] [p2 q2]]. apply lin_const. intros c _. cbv zeta.
  set (q' := if negb (c =? label) && (q <? 0) then 0 else q).
  assert (H : exists o, L2 (fun fn : arr Qc * arr Qc => if 0 <=? q' then
      m <- aget Fm (h + dh) (i + di) (j + dj) ;;
      if m =? 0 then
        to <- vget all q' ;;
        match to with
        | [th; ti; tj] =>
            n <- incr (snd fn) (p0 + th) (p1 + ti) (p1 + tj) 1%Qc ;;
            v <- aget F (h + dh) (i + di) (j + dj) ;;
            f <- incr (fst fn) (p0 + th) (p1 + ti) (p1 + tj) v ;;
            Ok (f, n)
        | _ => UB
        end
      else Ok fn
    else Ok fn) o).
  { apply lin_if; [|eexists; apply lin_ret]. apply lin_const. intros m _. apply lin_if; [|eexists; apply lin_ret].
    apply lin_const. intros to _. destruct to as [|th [|ti [|tj [|z to]]]]; try (exists UB; intros a Ha; reflexivity). apply incr2c_any. }
  destruct H as [o1 H1]. eapply lin_seq; [exact H1|]. apply IH.
Qed.

Lemma W2c_point_any : forall P C Ce Fm F rows x, exists o, L2 (fun fn => W2c_point P C Ce Fm F rows fn x) o.
Proof.
  intros. unfold W2c_point. apply lin_const. intros label _. apply lin_if; [eexists; apply lin_ret|]. apply lin_const. intros c _.
  apply lin_if; [eexists; apply lin_ret|]. apply W2c_walk_any.
Qed.

Lemma W2c_stamp_any : forall s P C Ce Fm F mode st, exists o, LE s (fun e => W2c_stamp P C Ce Fm F mode e st) o.
Proof.
  intros s P C Ce Fm F mode st.
  assert (H : exists o, LE s (fun e => rows <- path the_fuel [0; 0; 0] st mode ;;
     fn <- foldM (W2c_point P C Ce Fm F rows) (positions P F) (e_first e, e_norm e) ;; Ok (set_data e (fst fn) (e_second e) (snd fn))) o).
  { apply lin_const. intros rows _.
    destruct (lin_fold vec2 (ix2 k0 k1 k2) _ (W2c_point P C Ce Fm F rows) (dims2 k0 k1 k2) (positions P F)) as [o1 H1].
    { intros x _. apply W2c_point_any. }
    apply (lift2_lin s (fun fn => foldM (W2c_point P C Ce Fm F rows) (positions P F) fn) o1); auto. }
  destruct H as [o H]. exists o. eapply lin_ext; [|exact H]. intros e [HO _]. unfold W2c_stamp. rewrite (fuel_eq e HO). reflexivity.
Qed.
End Add.

Section Calls.
Variables (asrt per var : bool) (roi : list Z) (k0 k1 k2 : Z).
Hypothesis Kp : 0 <= k0 /\ 0 <= k1 /\ 0 <= k2.

Notation LE s := (lin vecE (ixE k0 k1 k2) (okS s per var roi k0 k1 k2) (okS s per var roi k0 k1 k2)).
Notation LB s := (lin vecE (ixE k0 k1 k2) (before asrt s per var roi k0 k1 k2) (okS s per var roi k0 k1 k2)).

Definition roi_okc : res unit := if (k0 <? 1) || (k1 <? 1) || (k2 <? 1) then UB else Ok tt.
Lemma roi_ok_eq : forall e, okE per var roi k0 k1 k2 e -> roi_ok e = roi_okc.
Proof. intros e [_ _ _ (E0 & E1 & E2 & _) _ _]. unfold roi_ok, roi_okc. rewrite E0, E1, E2. reflexivity. Qed.
Lemma roi_okc_inv : roi_okc = Ok tt -> 1 <= k0 /\ 1 <= k1 /\ 1 <= k2.
Proof. unfold roi_okc. destruct ((k0 <? 1) || (k1 <? 1) || (k2 <? 1)) eqn:E; [discriminate|]. rewrite !orb_false_iff, !Z.ltb_ge in E. lia. Qed.

Lemma start_any : forall s pt, (exists o, LE s pt o) -> exists o, LB s (fun e => pt (set_stat e s)) o.
Proof.
  intros s pt [o H]. exists o. intros e [HO _]. specialize (H (set_stat e s) (ok_set_stat _ _ _ _ _ _ _ _ HO)). destruct o; auto.
Qed.

Lemma add_any : forall c, exists o, LB (stat_of c) (fun e => add asrt e c) o.
Proof.
  intros c. destruct c as [f|f m|f g m|f g m|w f m|cl ce f m mode|f m|f mode]; cbn [stat_of add].
  - (* mean *)
    destruct (andb (0 <? k0 * k1 * k2) (negb asrt || (k0 =? 1) && (k1 =? 1) && (k2 =? 1))) eqn:EK.
    + exists (Ok (fun i => if snd i =? 0 then match fst i with C_first => qsum (i_vals f) | C_second => qsum (map (fun x => x * x)%Qc (i_vals f)) | C_norm => zq (lenZ (i_vals f)) end else 0%Qc)).
      intros e HB. pose proof HB as [HO _]. pose proof HO as [O1 O2 O3 (A0 & A1 & A2 & A3) (B0 & B1 & B2 & B3) (C0 & C1 & C2 & C3)].
      apply andb_true_iff in EK. destruct EK as [EK EA]. apply Z.ltb_lt in EK.
      unfold mean. rewrite A0, A1, A2, (before_assert _ _ _ _ _ _ _ _ _ HB).
      replace (assertb asrt ((k0 =? 1) && (k1 =? 1) && (k2 =? 1))) with (Ok tt) by (unfold assertb; destruct asrt; auto; cbn [negb orb] in EA; rewrite EA; auto).
      rewrite !bind_Ok. unfold plus0. rewrite !vget_qn by lia. rewrite !bind_Ok. eexists. split; [reflexivity|]. split.
      * split; [|reflexivity]. split; auto; cbn [set_data e_first e_second e_norm]; unfold dims; cbn [d0 d1 d2 dat]; rewrite upd_lenZ; auto.
      * intros [c r] Hr. unfold ixE in Hr. cbn [snd] in Hr. unfold vecE. destruct c; cbn [fst snd set_data e_first e_second e_norm dat];
          rewrite (qn_upd _ 0 r) by lia; rewrite (Z.eqb_sym 0 r); destruct (Z.eqb_spec r 0) as [->|]; ring.
    + apply andb_false_iff in EK. destruct asrt eqn:EA.
      * destruct ((k0 =? 1) && (k1 =? 1) && (k2 =? 1)) eqn:EE.
        { destruct EK as [EK|EK]; [|discriminate]. rewrite !andb_true_iff, !Z.eqb_eq in EE. destruct EE as [[-> ->] ->]. discriminate. }
        exists Throw. intros e HB. pose proof HB as [HO _]. pose proof HO as [O1 O2 O3 (A0 & A1 & A2 & A3) _ _]. unfold mean. rewrite A0, A1, A2, EE. reflexivity.
      * destruct EK as [EK|EK]; [|discriminate]. apply Z.ltb_ge in EK. exists UB. intros e HB. pose proof HB as [HO _]. pose proof HO as [O1 O2 O3 (A0 & A1 & A2 & A3) _ _].
        unfold mean. cbn [assertb]. rewrite !bind_Ok. unfold plus0. rewrite vget_oob by lia. reflexivity.
  - (* masked mean *)
    destruct (assertb asrt (shape_eqb (i_shape f) (i_shape m))) as [[]| | |] eqn:E1.
    2: { exists Throw. intros e HB. unfold mean_masked. rewrite E1. reflexivity. } 2: { exists UB. intros e HB. unfold mean_masked. rewrite E1. reflexivity. }
    2: { exists NoFuel. intros e HB. unfold mean_masked. rewrite E1. reflexivity. }
    destruct (assertb asrt (binary m)) as [[]| | |] eqn:E2.
    2: { exists Throw. intros e HB. unfold mean_masked. rewrite E1, E2. reflexivity. } 2: { exists UB. intros e HB. unfold mean_masked. rewrite E1, E2. reflexivity. }
    2: { exists NoFuel. intros e HB. unfold mean_masked. rewrite E1, E2. reflexivity. }
    destruct (assertb asrt ((k0 =? 1) && (k1 =? 1) && (k2 =? 1))) as [[]| | |] eqn:E3.
    2: { exists Throw. intros e HB. pose proof HB as [HO _]. pose proof HO as [O1 O2 O3 (A0 & A1 & A2 & A3) _ _]. unfold mean_masked. rewrite E1, E2, A0, A1, A2, E3. reflexivity. }
    2: { exists UB. intros e HB. pose proof HB as [HO _]. pose proof HO as [O1 O2 O3 (A0 & A1 & A2 & A3) _ _]. unfold mean_masked. rewrite E1, E2, A0, A1, A2, E3. reflexivity. }
    2: { exists NoFuel. intros e HB. pose proof HB as [HO _]. pose proof HO as [O1 O2 O3 (A0 & A1 & A2 & A3) _ _]. unfold mean_masked. rewrite E1, E2, A0, A1, A2, E3. reflexivity. }
    destruct (negb (shape_eqb (i_shape f) (i_shape m))) eqn:E4.
    { exists UB. intros e HB. pose proof HB as [HO _]. pose proof HO as [O1 O2 O3 (A0 & A1 & A2 & A3) _ _]. unfold mean_masked.
      rewrite E1, E2, A0, A1, A2, E3, (before_assert _ _ _ _ _ _ _ _ _ HB), E4. reflexivity. }
    destruct (0 <? k0 * k1 * k2) eqn:EK.
    + apply Z.ltb_lt in EK.
      exists (Ok (fun i => if snd i =? 0 then match fst i with
         | C_first => qsum (map (fun x : Qc * Z => if snd x =? 0 then fst x else 0%Qc) (combine (i_vals f) (i_vals m)))
         | C_second => qsum (map (fun x : Qc * Z => if snd x =? 0 then (fst x * fst x)%Qc else 0%Qc) (combine (i_vals f) (i_vals m)))
         | C_norm => zq (zsum (map (fun m => 1 - m) (i_vals m))) end else 0%Qc)).
      intros e HB. pose proof HB as [HO _]. pose proof HO as [O1 O2 O3 (A0 & A1 & A2 & A3) (B0 & B1 & B2 & B3) (C0 & C1 & C2 & C3)].
      unfold mean_masked. rewrite E1, E2, A0, A1, A2, E3, (before_assert _ _ _ _ _ _ _ _ _ HB), E4. rewrite !bind_Ok. cbv zeta.
      unfold plus0. rewrite !vget_qn by lia. rewrite !bind_Ok. eexists. split; [reflexivity|]. split.
      * split; [|reflexivity]. split; auto; cbn [set_data e_first e_second e_norm]; unfold dims; cbn [d0 d1 d2 dat]; rewrite upd_lenZ; auto.
      * intros [c r] Hr. unfold ixE in Hr. cbn [snd] in Hr. unfold vecE. destruct c; cbn [fst snd set_data e_first e_second e_norm dat];
          rewrite (qn_upd _ 0 r) by lia; rewrite (Z.eqb_sym 0 r); destruct (Z.eqb_spec r 0) as [->|]; ring.
    + apply Z.ltb_ge in EK. exists UB. intros e HB. pose proof HB as [HO _]. pose proof HO as [O1 O2 O3 (A0 & A1 & A2 & A3) _ _].
      unfold mean_masked. rewrite E1, E2, A0, A1, A2, E3, (before_assert _ _ _ _ _ _ _ _ _ HB), E4. rewrite !bind_Ok. unfold plus0. rewrite vget_oob by lia. reflexivity.
  - (* S2 *)
    set (fm := fst (mask2 f m)). set (gm := snd (mask2 f m)). clearbody fm gm.
    assert (H : exists o, LB S_S2 (fun e =>
      _ <- assertb asrt (shape_eqb (i_shape f) (i_shape g)) ;; _ <- assertb asrt (shape_eqb (i_shape f) (i_shape fm)) ;;
      _ <- assertb asrt (shape_eqb (i_shape f) (i_shape gm)) ;; _ <- assertb asrt (Nat.eqb (length (i_shape f)) (length roi)) ;;
      _ <- assertb asrt (binary fm) ;; _ <- assertb asrt (binary gm) ;; u <- roi_okc ;;
      f3 <- to3 f ;; g3 <- to3 g ;; fm3 <- to3 fm ;; gm3 <- to3 gm ;;
      F <- pad_mode per 0%Qc f3 (pad_width k0 k1 k2) ;; G <- pad_mode per 0%Qc g3 (pad_width k0 k1 k2) ;;
      foldM (S2_point (pad_width k0 k1 k2) F G (pad_mask per fm3 (pad_width k0 k1 k2)) (pad_mask per gm3 (pad_width k0 k1 k2))) (positions (pad_width k0 k1 k2) F) (set_stat e S_S2)) o).
    { repeat (apply lin_const; intros ? ?).
      assert (K1 : 1 <= k0 /\ 1 <= k1 /\ 1 <= k2) by (apply roi_okc_inv; match goal with H : roi_okc = Ok ?u |- _ => destruct u; auto end).
      apply (start_any S_S2 (fun e => foldM _ _ e)). apply lin_fold. intros x _. apply S2_point_any; auto. }
    destruct H as [o H]. exists o. eapply lin_ext; [|exact H]. intros e HB. pose proof HB as [HO _]. unfold S2.
    rewrite (before_assert _ _ _ _ _ _ _ _ _ HB), (roi_ok_eq e HO), (ok_pad _ _ _ _ _ _ _ HO), (ok_per _ _ _ _ _ _ _ HO), (ok_roi _ _ _ _ _ _ _ HO). reflexivity.
  - (* C2 *)
    set (fm := fst (mask2 f m)). set (gm := snd (mask2 f m)). clearbody fm gm.
    assert (H : exists o, LB S_C2 (fun e =>
      _ <- assertb asrt (shape_eqb (i_shape f) (i_shape g)) ;; _ <- assertb asrt (shape_eqb (i_shape f) (i_shape fm)) ;;
      _ <- assertb asrt (shape_eqb (i_shape f) (i_shape gm)) ;; _ <- assertb asrt (Nat.eqb (length (i_shape f)) (length roi)) ;;
      _ <- assertb asrt (binary fm) ;; _ <- assertb asrt (binary gm) ;; u <- roi_okc ;;
      f3 <- to3 f ;; g3 <- to3 g ;; fm3 <- to3 fm ;; gm3 <- to3 gm ;;
      F <- pad_mode per 0 f3 (pad_width k0 k1 k2) ;; G <- pad_mode per 0 g3 (pad_width k0 k1 k2) ;;
      foldM (C2_point (pad_width k0 k1 k2) F G (pad_mask per fm3 (pad_width k0 k1 k2)) (pad_mask per gm3 (pad_width k0 k1 k2))) (positions (pad_width k0 k1 k2) F) (set_stat e S_C2)) o).
    { repeat (apply lin_const; intros ? ?).
      assert (K1 : 1 <= k0 /\ 1 <= k1 /\ 1 <= k2) by (apply roi_okc_inv; match goal with H : roi_okc = Ok ?u |- _ => destruct u; auto end).
      apply (start_any S_C2 (fun e => foldM _ _ e)). apply lin_fold. intros x _. apply C2_point_any; auto. }
    destruct H as [o H]. exists o. eapply lin_ext; [|exact H]. intros e HB. pose proof HB as [HO _]. unfold C2.
    rewrite (before_assert _ _ _ _ _ _ _ _ _ HB), (roi_ok_eq e HO), (ok_pad _ _ _ _ _ _ _ HO), (ok_per _ _ _ _ _ _ _ HO), (ok_roi _ _ _ _ _ _ _ HO). reflexivity.
  - (* W2 *)
    set (gm := mask1 w m). clearbody gm.
    assert (H : exists o, LB S_W2 (fun e =>
      _ <- assertb asrt (shape_eqb (i_shape w) (i_shape f)) ;;
      _ <- assertb asrt (shape_eqb (i_shape w) (i_shape gm)) ;; _ <- assertb asrt (Nat.eqb (length (i_shape w)) (length roi)) ;;
      _ <- assertb asrt (binary gm) ;; u <- roi_okc ;;
      f3 <- to3 w ;; g3 <- to3 f ;; gm3 <- to3 gm ;;
      F <- pad_mode per 0%Qc f3 (pad_width k0 k1 k2) ;; G <- pad_mode per 0%Qc g3 (pad_width k0 k1 k2) ;;
      foldM (W2_point (pad_width k0 k1 k2) F G (pad_mask per gm3 (pad_width k0 k1 k2))) (positions (pad_width k0 k1 k2) F) (set_stat e S_W2)) o).
    { repeat (apply lin_const; intros ? ?).
      assert (K1 : 1 <= k0 /\ 1 <= k1 /\ 1 <= k2) by (apply roi_okc_inv; match goal with H : roi_okc = Ok ?u |- _ => destruct u; auto end).
      apply (start_any S_W2 (fun e => foldM _ _ e)). apply lin_fold. intros x _. apply W2_point_any; auto. }
    destruct H as [o H]. exists o. eapply lin_ext; [|exact H]. intros e HB. pose proof HB as [HO _]. unfold W2.
    rewrite (before_assert _ _ _ _ _ _ _ _ _ HB), (roi_ok_eq e HO), (ok_pad _ _ _ _ _ _ _ HO), (ok_per _ _ _ _ _ _ _ HO), (ok_roi _ _ _ _ _ _ _ HO). reflexivity.
  - (* W2c *)
    set (fm := mask1 f m). clearbody fm.
    assert (H : exists o, LB S_W2c (fun e =>
      _ <- assertb asrt (shape_eqb (i_shape f) (i_shape cl)) ;; _ <- assertb asrt (shape_eqb (i_shape f) (i_shape ce)) ;;
      _ <- assertb asrt (shape_eqb (i_shape f) (i_shape fm)) ;; _ <- assertb asrt (Nat.eqb (length (i_shape f)) (length roi)) ;;
      _ <- assertb asrt (binary fm) ;; u <- roi_okc ;;
      f3 <- to3 f ;; fm3 <- to3 fm ;; c3 <- to3 cl ;; ce3 <- to3 ce ;;
      F <- pad_mode per 0%Qc f3 (pad_width k0 k1 k2) ;; Fm <- pad_mode per 0 fm3 (pad_width k0 k1 k2) ;;
      C <- pad_mode per 0 c3 (pad_width k0 k1 k2) ;; Ce <- pad_mode per 0 ce3 (pad_width k0 k1 k2) ;;
      foldM (W2c_stamp (pad_width k0 k1 k2) C Ce Fm F mode) (stamps k0 k1 k2 (pad_width k0 k1 k2)) (set_stat e S_W2c)) o).
    { repeat (apply lin_const; intros ? ?). apply (start_any S_W2c (fun e => foldM _ _ e)). apply lin_fold. intros x _. apply W2c_stamp_any; auto. }
    destruct H as [o H]. exists o. eapply lin_ext; [|exact H]. intros e HB. pose proof HB as [HO _]. unfold W2c.
    rewrite (before_assert _ _ _ _ _ _ _ _ _ HB), (roi_ok_eq e HO), (ok_pad _ _ _ _ _ _ _ HO), (ok_per _ _ _ _ _ _ _ HO), (ok_roi _ _ _ _ _ _ _ HO).
    pose proof HO as [_ _ _ (A0 & A1 & A2 & _) _ _]. rewrite A0, A1, A2. reflexivity.
  - (* heightheight *)
    set (fm := mask1 f m). clearbody fm.
    assert (H : exists o, LB S_heightheight (fun e =>
      _ <- assertb asrt (shape_eqb (i_shape f) (i_shape fm)) ;; _ <- assertb asrt (Nat.eqb (length (i_shape f)) (length roi)) ;;
      _ <- assertb asrt (binary fm) ;; u <- roi_okc ;; f3 <- to3 f ;; fm3 <- to3 fm ;;
      F <- pad_mode per 0%Qc f3 (pad_width k0 k1 k2) ;;
      foldM (hh_point (pad_width k0 k1 k2) F (pad_mask per fm3 (pad_width k0 k1 k2))) (positions (pad_width k0 k1 k2) F) (set_stat e S_heightheight)) o).
    { repeat (apply lin_const; intros ? ?).
      assert (K1 : 1 <= k0 /\ 1 <= k1 /\ 1 <= k2) by (apply roi_okc_inv; match goal with H : roi_okc = Ok ?u |- _ => destruct u; auto end).
      apply (start_any S_heightheight (fun e => foldM _ _ e)). apply lin_fold. intros x _. apply hh_point_any; auto. }
    destruct H as [o H]. exists o. eapply lin_ext; [|exact H]. intros e HB. pose proof HB as [HO _]. unfold heightheight.
    rewrite (before_assert _ _ _ _ _ _ _ _ _ HB), (roi_ok_eq e HO), (ok_pad _ _ _ _ _ _ _ HO), (ok_per _ _ _ _ _ _ _ HO), (ok_roi _ _ _ _ _ _ _ HO). reflexivity.
  - (* L *)
    assert (H : exists o, LB S_L (fun e =>
      _ <- assertb asrt (Nat.eqb (length (i_shape f)) (length roi)) ;; u <- roi_okc ;; f3 <- to3 f ;;
      F <- pad_mode per 0 f3 (pad_width k0 k1 k2) ;;
      foldM (L_stamp (pad_width k0 k1 k2) F (lenZ (i_vals f)) mode) (stamps k0 k1 k2 (pad_width k0 k1 k2)) (set_stat e S_L)) o).
    { repeat (apply lin_const; intros ? ?). apply (start_any S_L (fun e => foldM _ _ e)). apply lin_fold. intros x _. apply L_stamp_any; auto. }
    destruct H as [o H]. exists o. eapply lin_ext; [|exact H]. intros e HB. pose proof HB as [HO _]. unfold L.
    rewrite (before_assert _ _ _ _ _ _ _ _ _ HB), (roi_ok_eq e HO), (ok_pad _ _ _ _ _ _ _ HO), (ok_per _ _ _ _ _ _ _ HO), (ok_roi _ _ _ _ _ _ _ HO).
    pose proof HO as [_ _ _ (A0 & A1 & A2 & _) _ _]. rewrite A0, A1, A2. reflexivity.
Qed.
End Calls.
