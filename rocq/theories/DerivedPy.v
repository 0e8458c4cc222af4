(** * DerivedPy: proofs about the Python bindings of Ensemble *)

From Coq Require Import ZArith QArith Qcanon List Bool Lia.
From Verif Require Import Base Path Ensemble EnsemblePy SpecPy.
Import ListNotations.
Open Scope Z_scope.

Lemma this_zq : forall z, this (zq z) = (z # 1)%Q.
Proof.
  intros z. unfold zq, Q2Qc, inject_Z. cbn [this]. unfold Qred.
  pose proof (Z.ggcd_gcd z 1) as G. pose proof (Z.ggcd_correct_divisors z 1) as D.
  destruct (Z.ggcd z 1) as [g [a b]]. cbn [fst snd] in *. rewrite Z.gcd_1_r in G. subst g.
  destruct D as [D1 D2]. rewrite Z.mul_1_l in D1, D2. subst a b. reflexivity.
Qed.

Lemma trunc_zq : forall z, trunc (zq z) = z.
Proof. intros z. unfold trunc. rewrite this_zq. cbn [Qnum Qden]. apply Z.quot_1_r. Qed.

Lemma trunc_toward_zero : forall q, toward_zero q (trunc q).
Proof.
  intros q. unfold toward_zero, Qcle, Qclt, trunc. rewrite !this_zq. unfold Qle, Qlt.
  destruct (this q) as [n d]. cbn [Qnum Qden]. change (this 0%Qc) with (0 # 1)%Q. cbn [Qnum Qden].
  pose proof (Z.quot_rem' n (Z.pos d)) as E. pose proof (Z.rem_bound_abs n (Z.pos d) ltac:(lia)) as B.
  split; intros H.
  - assert (0 <= Z.rem n (Z.pos d)) by (apply Z.rem_nonneg; lia). split; nia.
  - assert (Z.rem n (Z.pos d) <= 0) by (apply Z.rem_nonpos; lia). split; nia.
Qed.

Lemma holds_load : forall a i, holds a i -> load PInt a = Ok (AInt i).
Proof.
  intros [t s v] [s' v'] (E & V & F). cbn [i_shape a_shape a_vals i_vals] in *. subst s' v. unfold load. cbn [a_vals a_shape].
  replace (forallb _ _) with true.
  - rewrite map_map. do 3 f_equal. rewrite <- (map_id v') at 2. apply map_ext. intros z. apply trunc_zq.
  - symmetry. apply forallb_forall. intros q Hq. apply in_map_iff in Hq. destruct Hq as (z & <- & Hz). rewrite trunc_zq.
    rewrite Forall_forall in F. specialize (F z Hz). unfold int_range. apply andb_true_intro. split; [apply Z.leb_le|apply Z.ltb_lt]; lia.
Qed.

Lemma holds_widen : forall a i, holds a i -> widen i = image a.
Proof. intros a [s v] (E & V & _). cbn [i_shape i_vals] in *. unfold widen, image. cbn [i_shape i_vals]. rewrite E, <- V. reflexivity. Qed.

Lemma load_double : forall a, load PDouble a = Ok (ADouble (image a)).
Proof. reflexivity. Qed.

Ltac loading :=
  cbn [andb]; unfold enter; cbn [o_params load_all];
  repeat first [rewrite load_double | match goal with H : holds ?a ?i |- context [load PInt ?a] => rewrite (holds_load a i H) end];
  cbn [bind o_call];
  repeat match goal with H : holds ?a ?i |- context [widen ?i] => rewrite (holds_widen a i H) end;
  try reflexivity.

Lemma asked_faithful : forall m args mode c, asked m args mode c -> faithful m args -> py_call m args mode = Ok c.
Proof.
  intros m args mode c H HF. unfold py_call, dispatch.
  destruct H; cbn [overloads find o_params applies orb andb]; rewrite ?andb_false_r, ?andb_true_r; cbn [faithful] in HF;
    unfold exact_match.
  - destruct (a_dtype f); loading.
  - destruct (a_dtype f), (a_dtype fm); loading.
  - destruct HF as [[E1 E2]|[[i Hi] [j Hj]]].
    + rewrite E1, E2. loading.
    + destruct (a_dtype f), (a_dtype g); loading.
  - destruct (a_dtype f), (a_dtype g), (a_dtype fm), (a_dtype gm); loading.
  - destruct (a_dtype f); loading.
  - destruct (a_dtype f), (a_dtype fm); loading.
  - destruct (a_dtype f), (a_dtype g); loading.
  - destruct (a_dtype f), (a_dtype g), (a_dtype fm), (a_dtype gm); loading.
  - destruct HF as [[E1 E2]|[[i Hi] [j Hj]]].
    + rewrite E1, E2. loading.
    + destruct (a_dtype w), (a_dtype f); loading.
  - destruct (a_dtype w), (a_dtype f), (a_dtype fm); loading.
  - destruct HF as [(E1 & E2 & E3)|[i Hi]].
    + rewrite E1, E2, E3. loading.
    + destruct (a_dtype c), (a_dtype ce), (a_dtype f); loading.
  - destruct (a_dtype c), (a_dtype ce), (a_dtype f), (a_dtype fm); loading.
  - destruct (a_dtype f); loading.
Qed.

Lemma asked_add : forall asrt e m args mode c, asked m args mode c -> faithful m args ->
  py_add asrt e m args mode = add asrt e c /\
  forall roi per, m <> M_mean -> py_single asrt roi per m args mode = single asrt roi per c.
Proof.
  intros asrt e m args mode c HA HF. pose proof (asked_faithful _ _ _ _ HA HF) as E. unfold py_add, py_single. rewrite E. cbn [bind].
  split; [reflexivity|]. intros roi per HM. destruct m; auto. contradiction.
Qed.

(** Unless both are float64, images are rounded. *)
Lemma load_rounded : forall a i, load PInt a = Ok (AInt i) -> rounded a (widen i).
Proof.
  intros a i H. unfold load in H. destruct (forallb _ _); [|discriminate]. injection H as <-. split; [reflexivity|].
  exists (map trunc (a_vals a)). split; [reflexivity|]. induction (a_vals a); cbn [map]; constructor; auto. apply trunc_toward_zero.
Qed.

Lemma double_dec : forall f g, both_double f g \/ (match a_dtype f, a_dtype g with Float64, Float64 => False | _, _ => True end).
Proof. intros f g. unfold both_double. destruct (a_dtype f), (a_dtype g); auto. Qed.

Lemma int_first : forall f g, ~ both_double f g -> forall o1 o2 rest, o_params o1 = [PInt; PInt] -> o_params o2 = [PDouble; PDouble] ->
  (forall o, In o rest -> length (o_params o) <> 2%nat) ->
  dispatch (o1 :: o2 :: rest) [f; g] = enter o1 [f; g].
Proof.
  intros f g HN o1 o2 rest P1 P2 HR. unfold dispatch. cbn [find]. rewrite P1, P2. cbn [applies orb andb]. rewrite !andb_true_r.
  assert (N : find (fun o => applies false (o_params o) [f; g]) rest = None).
  { destruct (find _ rest) eqn:E; auto. apply find_some in E. destruct E as [E1 E2]. specialize (HR _ E1).
    destruct (o_params o) as [|p1 [|p2 [|]]]; cbn [applies length] in *; try lia; rewrite ?andb_false_r in E2; try discriminate.
    }
  unfold exact_match. destruct (a_dtype f) eqn:E1, (a_dtype g) eqn:E2; cbn [andb]; rewrite ?N; try reflexivity.
  exfalso. apply HN. split; auto.
Qed.

Lemma truncates : forall f g mode, ~ both_double f g ->
  (forall c, py_call M_S2 [f; g] mode = Ok c -> exists i j, c = CallS2 i j None /\ rounded f i /\ rounded g j) /\
  (forall c, py_call M_W2 [f; g] mode = Ok c -> exists i j, c = CallW2 i j None /\ rounded f i /\ rounded g j).
Proof.
  intros f g mode HN. split; intros c H; unfold py_call, overloads in H;
    (rewrite (int_first f g HN) in H by first [reflexivity | intros o [<-|[]]; cbn; lia]);
    unfold enter in H; cbn [o_params load_all] in H;
    destruct (load PInt f) as [x| | |] eqn:LF; cbn [bind] in H; try discriminate;
    destruct (load PInt g) as [y| | |] eqn:LG; cbn [bind o_call] in H; try discriminate;
    (destruct x as [x|]; [|unfold load in LF; destruct (forallb _ _); discriminate]);
    (destruct y as [y|]; [|unfold load in LG; destruct (forallb _ _); discriminate]);
    injection H as <-; exists (widen x), (widen y); (split; [reflexivity|split; apply load_rounded; auto]).
Qed.
