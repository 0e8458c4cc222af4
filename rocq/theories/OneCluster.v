(** * OneCluster: C2 is S2 exactly if there is one cluster (proofs only) *)

From Coq Require Import ZArith QArith Qcanon List Bool Lia.
From Verif Require Import Base BaseLemmas ClusterGeom ClusterMain ClusterTop Array3 Array3Lemmas SpecDilate SpecPath
  Ensemble SpecEnsemble EnsembleSums EnsembleTop SpecSymmetry SpecAlgebra DerivedAlgebra DerivedCluster DerivedRelations Links SpecOneCluster SpecCluster Cluster.
Import ListNotations.
Open Scope Z_scope.

Lemma whole_offset : forall shape x y, inside shape x -> inside shape y ->
  exists c, inside (map (fun n => 2 * n - 1) shape) c /\ moved false shape x (diff c (anchor (map (fun n => 2 * n - 1) shape))) y.
Proof.
  induction shape as [|n shape IH]; intros [|u x] [|v y] Ix Iy; try contradiction.
  - exists []. split; exact I.
  - destruct Ix as [I1 I2]. destruct Iy as [J1 J2]. destruct (IH x y I2 J2) as (c & Ic & M). exists (v - u + (n - 1) :: c).
    split; [cbn [map inside]; split; [lia|exact Ic]|]. unfold diff, anchor in *. cbn [map combine moved fst snd].
    replace ((2 * n - 1 - 1) / 2) with (n - 1). 2: { replace (2 * n - 1 - 1) with ((n - 1) * 2) by lia. rewrite Z.div_mul; lia. }
    split; [lia|exact M].
Qed.

Lemma whole_sees : forall per shape p q, Forall (fun n => 1 <= n) shape -> pixel shape p -> pixel shape q ->
  exists r, pixel (whole per shape) r /\ moved per shape (coords shape p) (offset (whole per shape) r) (coords shape q).
Proof.
  intros per shape p q HN Hp Hq. assert (HP : Forall (fun n => 0 < n) shape) by (eapply Forall_impl; try exact HN; intros; simpl in *; lia).
  destruct per; cbn [whole].
  - destruct (one_offset shape (coords shape p) (coords shape q) HN) as (c & Ic & Hc); try (apply coords_inside; auto).
    destruct (pixel_of_coords shape c Ic) as (r & Hr & Er). exists r. split; [exact Hr|]. unfold offset. rewrite Er. apply Hc; auto.
  - destruct (whole_offset shape (coords shape p) (coords shape q)) as (c & Ic & Hc); try (apply coords_inside; auto).
    destruct (pixel_of_coords _ c Ic) as (r & Hr & Er). exists r. split; [exact Hr|]. unfold offset. rewrite Er. exact Hc.
Qed.

Lemma sum_equal : forall A (l : list A) F G, (forall x, In x l -> (F x <= G x)%Qc) -> sum_over l F = sum_over l G -> forall x, In x l -> F x = G x.
Proof.
  induction l as [|y l IH]; intros F G H E x IN; [destruct IN|]. rewrite !sum_cons in E.
  assert (A1 : (F y <= G y)%Qc) by (apply H; simpl; auto). assert (A2 : (sum_over l F <= sum_over l G)%Qc) by (apply sum_le; intros; apply H; simpl; auto).
  assert (E1 : F y = G y).
  { apply Qcle_antisym; [exact A1|]. apply Qcle_minus_iff. replace (F y + - G y)%Qc with (sum_over l G + - sum_over l F)%Qc; [apply -> Qcle_minus_iff; exact A2|].
    replace (sum_over l G) with (F y + sum_over l F - G y)%Qc by (rewrite E; ring). ring. }
  assert (E2 : sum_over l F = sum_over l G).
  { replace (sum_over l F) with (F y + sum_over l F - F y)%Qc by ring. rewrite E, E1. ring. }
  destruct IN as [<-|IN]; [exact E1|]. apply IH; auto. intros; apply H; simpl; auto.
Qed.

Lemma one_cluster : forall asrt per var shape f, shapes per (whole per shape) shape -> good_shape shape -> is_image shape f ->
  exists lab e e', clusters asrt shape (i_vals f) per = Ok lab /\
    fresh asrt (whole per shape) per var (CallC2 (mkimg shape lab) (mkimg shape lab) None) = Ok e /\
    fresh asrt (whole per shape) per var (CallS2 (indicator f) (indicator f) None) = Ok e' /\
    ((forall r, pixel (whole per shape) r -> result_at e r = result_at e' r) <-> connected per shape (i_vals f)).
Proof.
  intros asrt per var shape f HS HG Hf. set (roi := whole per shape) in *.
  assert (H3 : (length shape <= 3)%nat) by apply HS. assert (HN : Forall (fun n => 1 <= n) shape) by apply HS.
  destruct (clusters_ok asrt shape (i_vals f) per HG H3 (proj2 Hf)) as (lab & EL & LL & LZ & LS & _).
  assert (Hl : is_image shape (mkimg shape lab)) by (split; [reflexivity|exact LL]).
  destruct (C2_any asrt per var roi shape _ _ None HS Hl Hl I) as (e & E & _ & V).
  destruct (S2_any asrt per var roi shape (indicator f) (indicator f) None HS (each_image _ _ _ _ _ Hf) (each_image _ _ _ _ _ Hf) I) as (e' & E' & _ & V').
  exists lab, e, e'. do 3 (split; [assumption|]).
  assert (W : forall r, pixel roi r -> first_at e r = sum_over (pairs per shape (offset roi r)) (fun pq => if same_label lab lab pq then 1%Qc else 0%Qc) /\
    first_at e' r = sum_over (pairs per shape (offset roi r)) (fun pq => if negb (zn (i_vals f) (fst pq) =? 0) && negb (zn (i_vals f) (snd pq) =? 0) then 1%Qc else 0%Qc) /\
    result_at e r = Exact (first_at e r / safe (norm_at e r))%Qc /\ result_at e' r = Exact (first_at e' r / safe (norm_at e r))%Qc).
  { intros r Hr. destruct (V r Hr) as (A1 & _ & A3 & A4). destruct (V' r Hr) as (B1 & _ & B3 & B4). cbn [mask2 fst snd zeros i_vals i_shape] in *.
    rewrite seen_zeros in A1, A3, B1, B3. split; [exact A1|]. split; [|split; [exact A4|]].
    - rewrite B1. apply sum_ext. intros [p q] IP. apply pairs_In in IP. destruct IP as (P & Q & _). cbn [fst snd].
      rewrite (indicator_qn shape f p), (indicator_qn shape f q) by auto. destruct (zn (i_vals f) p =? 0), (zn (i_vals f) q =? 0); reflexivity.
    - rewrite B4, A3, B3. reflexivity. }
  split.
  - intros H p q Hp Hq Np Nq. apply LS; auto. destruct (whole_sees per shape p q HN Hp Hq) as (r & Hr & M). fold roi in Hr, M.
    destruct (W r Hr) as (A & B & RA & RB). specialize (H r Hr). rewrite RA, RB in H.
    assert (H' : (first_at e r / safe (norm_at e r) = first_at e' r / safe (norm_at e r))%Qc) by congruence. clear H. rename H' into H.
    assert (EF : first_at e r = first_at e' r).
    { pose proof (safe_gt (norm_at e r)) as S. assert (NZ : safe (norm_at e r) <> 0%Qc) by (apply not_eq_sym, Qclt_not_eq; exact S).
      transitivity (first_at e r / safe (norm_at e r) * safe (norm_at e r))%Qc; [field; exact NZ|]. rewrite H. field; exact NZ. }
    rewrite A, B in EF.
    assert (IN : In (p, q) (pairs per shape (offset roi r))) by (apply pairs_In; split; [exact Hp|]; split; [exact Hq|]; apply movedb_iff; exact M).
    apply sum_equal with (x := (p, q)) in EF; [|clear -LZ|exact IN].
    + cbn [fst snd] in EF. rewrite (proj2 (Z.eqb_neq _ _) Np), (proj2 (Z.eqb_neq _ _) Nq) in EF. cbn [negb andb] in EF.
      destruct (same_label lab lab (p, q)) eqn:SL; [|discriminate EF]. unfold same_label in SL. cbn [fst snd] in SL. apply andb_true_iff in SL. apply Z.eqb_eq, SL.
    + intros [x y] IP. apply pairs_In in IP. destruct IP as (P & Q & _). unfold same_label. cbn [fst snd].
      destruct (Z.eqb_spec (zn (i_vals f) x) 0) as [Z|N]; [rewrite (proj2 (LZ x P) Z); discriminate|].
      destruct (Z.eqb_spec (zn (i_vals f) y) 0) as [Z|Ny]; cbn [negb andb]; [|destruct (negb _ && _); discriminate].
      rewrite (proj2 (LZ y Q) Z). destruct (zn lab x =? 0); discriminate.
  - intros H r Hr. destruct (W r Hr) as (A & B & RA & RB). rewrite RA, RB. do 2 f_equal. rewrite A, B. apply sum_ext. intros [p q] IP.
    apply pairs_In in IP. destruct IP as (P & Q & _). unfold same_label. cbn [fst snd].
    destruct (Z.eqb_spec (zn (i_vals f) p) 0) as [Z|N]; [rewrite (proj2 (LZ p P) Z); reflexivity|].
    assert (N' : zn lab p <> 0) by (intros X; apply N, LZ; auto). rewrite (proj2 (Z.eqb_neq _ _) N'). cbn [negb andb].
    destruct (Z.eqb_spec (zn (i_vals f) q) 0) as [Z|Nq]; [rewrite (proj2 (LZ q Q) Z), (proj2 (Z.eqb_neq _ _) N'); reflexivity|].
    rewrite (proj2 (LS p q P Q N Nq) (H p q P Q N Nq)), Z.eqb_refl. reflexivity.
Qed.
