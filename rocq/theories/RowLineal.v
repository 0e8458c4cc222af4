(** * RowLineal: the number of clusters of a row from its lineal path function (C151) *)

From Coq Require Import ZArith QArith Qcanon List Bool Lia.
From Verif Require Import Base BaseLemmas Cluster SpecCluster Path SpecPath Ensemble SpecEnsemble SpecLineal SpecRow RowTop EnsembleSums DerivedRelations LinealTop.
Import ListNotations.
Open Scope Z_scope.

Lemma stretch_zero : forall per n f p, 0 <= p < n -> lenZ f = n -> stretch per n f 0 p = fgb f p.
Proof.
  intros per n f p Hp L. unfold stretch. rewrite Z.add_0_r, Z.min_id, Z.max_id. rewrite (zrange_cons p) by lia. rewrite zrange_nil by lia.
  cbn [forallb]. rewrite andb_true_r. unfold open_at, fgb. rewrite Z.mod_small by lia.
  destruct per; [reflexivity|]. destruct (Z.leb_spec 0 p); [|lia]. destruct (Z.ltb_spec p n); [|lia]. reflexivity.
Qed.

Lemma stretch_one : forall per n f p, 0 <= p < n -> lenZ f = n -> stretch per n f 1 p = fgb f p && open_at per n f (p + 1).
Proof.
  intros per n f p Hp L. unfold stretch. rewrite Z.min_l, Z.max_r by lia. rewrite (zrange_cons p) by lia. rewrite (zrange_cons (p + 1)) by lia. rewrite zrange_nil by lia.
  cbn [forallb]. rewrite andb_true_r. f_equal. unfold open_at, fgb. rewrite Z.mod_small by lia.
  destruct per; [reflexivity|]. destruct (Z.leb_spec 0 p); [|lia]. destruct (Z.ltb_spec p n); [|lia]. reflexivity.
Qed.

Lemma bonds_stretch : forall per f, 0 < lenZ f -> lenZ (filter (stretch per (lenZ f) f 1) (zrange 0 (lenZ f))) = bonds per f.
Proof.
  intros per f Hn. unfold bonds. destruct per.
  - apply filter_ext_in_len. intros x Hx. apply zrange_In in Hx. rewrite stretch_one by auto. reflexivity.
  - replace (zrange 0 (lenZ f)) with (zrange 0 (lenZ f - 1 + 1)) by (f_equal; lia). rewrite filter_count_S by lia.
    rewrite stretch_one by lia. unfold open_at at 1. destruct (Z.ltb_spec (lenZ f - 1 + 1) (lenZ f)); [lia|].
    rewrite !andb_false_r. cbn [andb]. rewrite ?andb_false_r, Z.add_0_r. apply filter_ext_in_len. intros x Hx. apply zrange_In in Hx. rewrite stretch_one by lia.
    rewrite (Z.mod_small (x + 1)) by lia. unfold open_at, fgb. destruct (Z.leb_spec 0 (x + 1)); [|lia]. destruct (Z.ltb_spec (x + 1) (lenZ f)); [|lia]. reflexivity.
Qed.

Lemma filled_stretch : forall per f, lenZ (filter (stretch per (lenZ f) f 0) (zrange 0 (lenZ f))) = filled f.
Proof. intros per f. apply filter_ext_in_len. intros x Hx. apply zrange_In in Hx. rewrite stretch_zero by auto. reflexivity. Qed.

Theorem row_lineal : forall asrt per var k n f mode,
  shapes per [k] [n] -> is_image [n] f -> coverable mode [k] -> 1 < k -> n < big -> per = false \/ In 0 (i_vals f) ->
  exists e lab l0 l1 N, fresh asrt [k] per var (CallL f mode) = Ok e /\ clusters asrt [n] (i_vals f) per = Ok lab /\
    result_at e ((k - 1) / 2) = Exact l0 /\ result_at e ((k - 1) / 2 + 1) = Exact l1 /\
    (forall v, 1 <= v <= N <-> v <> 0 /\ In v lab) /\ zq N = (zq n * (l0 - l1))%Qc.
Proof.
  intros asrt per var k n f mode HS HI HC Hk HB H0.
  destruct (L_1d asrt per var k n f mode HS HI HC Hk) as (e & E & V).
  assert (Ln : lenZ (i_vals f) = n) by (destruct HI as [_ L]; cbn [zprod fold_right] in L; lia).
  assert (Hn : 1 <= n) by (destruct HS as (_ & _ & _ & F & _); inversion F; assumption).
  assert (HB' : lenZ (i_vals f) < big) by lia.
  assert (H0' : per = false \/ (exists v, In v (i_vals f) /\ v = 0)) by (destruct H0; [left; assumption|right; eauto]).
  destruct (row_count asrt per (i_vals f) HB' H0') as (lab & EL & N). rewrite Ln in EL.
  assert (B1 : 0 <= (k - 1) / 2) by (apply Z.div_pos; lia). assert (B2 : (k - 1) / 2 + 1 < k) by (assert (D := Z.div_lt_upper_bound (k - 1) 2 (k - 1)); lia).
  assert (V0 := V ((k - 1) / 2) ltac:(lia)). assert (V1 := V ((k - 1) / 2 + 1) ltac:(lia)).
  rewrite Z.sub_diag in V0. replace ((k - 1) / 2 + 1 - (k - 1) / 2) with 1 in V1 by lia.
  rewrite <- Ln in V0 at 1 2. rewrite <- Ln in V1 at 1 2. rewrite filled_stretch in V0. rewrite bonds_stretch in V1 by lia.
  eexists e, lab, _, _, _. split; [exact E|]. split; [exact EL|]. split; [exact V0|]. split; [exact V1|]. split; [exact N|].
  rewrite zq_sub. field. apply zq_nonzero. lia.
Qed.
