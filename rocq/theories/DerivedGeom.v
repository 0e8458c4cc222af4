(** * DerivedGeom: proofs about the bindings of [path], [dummy_circles] and the centers *)

From Coq Require Import ZArith QArith Qcanon Qreals Reals List Bool Lia Lra.
From Verif Require Import Base BaseLemmas Path Circles Center Ensemble EnsemblePy DerivedPy BindingsPy SpecBindings DerivedBindings BindingsGeom SpecGeom.
Import ListNotations.
Open Scope Z_scope.

Lemma vector_int : forall a l, vector (- 2 ^ 31) (2 ^ 31) a l -> with_rank 1 a (to_int a) = Ok (mkimg (a_shape a) l).
Proof.
  intros a l ((n & S) & V & F). unfold with_rank. rewrite S. change (lenZ [n] =? 1) with true. rewrite <- S. apply integers_int. repeat split; auto.
Qed.
Lemma vector_long : forall a l, vector (- 2 ^ 63) (2 ^ 63) a l -> with_rank 1 a (to_long a) = Ok (mkimg (a_shape a) l).
Proof.
  intros a l ((n & S) & V & F). unfold with_rank. rewrite S. change (lenZ [n] =? 1) with true. rewrite <- S. apply integers_long. repeat split; auto.
Qed.

Lemma path_passed : forall fuel xa xb a b, vector (- 2 ^ 31) (2 ^ 31) xa a -> vector (- 2 ^ 31) (2 ^ 31) xb b ->
  (forall mode, py_path fuel xa xb (Some mode) = path fuel a b mode) /\ py_path fuel xa xb None = path fuel a b Bresenham.
Proof. intros fuel xa xb a b HA HB. unfold py_path. rewrite (vector_int _ _ HA), (vector_int _ _ HB). cbn. auto. Qed.

Lemma circles_passed : forall asrt shape row col r x y s, vector (- 2 ^ 31) (2 ^ 31) row x -> vector (- 2 ^ 31) (2 ^ 31) col y -> vector (- 2 ^ 31) (2 ^ 31) r s ->
  (forall per, py_dummy_circles asrt shape row col r (Some per) = dummy_circles asrt shape x y s per) /\
  py_dummy_circles asrt shape row col r None = dummy_circles asrt shape x y s true.
Proof. intros asrt shape row col r x y s HX HY HS. unfold py_dummy_circles. rewrite (vector_int _ _ HX), (vector_int _ _ HY), (vector_int _ _ HS). cbn. auto. Qed.

Lemma rows_of : forall n m (l : list (list R)), lenZ l = n -> 0 <= m -> Forall (fun x => lenZ x = m) l ->
  map (fun i => firstn (Z.to_nat m) (skipn (Z.to_nat (i * m)) (concat l))) (zrange 0 n) = l.
Proof.
  intros n m l HN HM HF.
  assert (G : forall k, map (fun i => firstn (Z.to_nat m) (skipn (Z.to_nat ((i - k) * m)) (concat l))) (zrange k (k + n)) = l).
  { clear -HM HF HN. revert n HN. induction HF as [|x l Hx HF IH]; intros n HN k; unfold lenZ in HN; cbn [length] in HN.
    - unfold zrange. replace (k + n - k) with 0 by lia. reflexivity.
    - unfold zrange. replace (Z.to_nat (k + n - k)) with (S (Z.to_nat (n - 1))) by lia. cbn [zseq map]. f_equal.
      + rewrite Z.sub_diag, Z.mul_0_l. cbn [Z.to_nat skipn concat]. rewrite firstn_app. unfold lenZ in Hx.
        replace (Z.to_nat m - length x)%nat with 0%nat by lia. rewrite firstn_O, app_nil_r. apply firstn_all2. lia.
      + specialize (IH (n - 1) ltac:(unfold lenZ; lia) (k + 1)). unfold zrange in IH. replace (Z.to_nat (k + 1 + (n - 1) - (k + 1))) with (Z.to_nat (n - 1)) in IH by lia.
        etransitivity; [|exact IH]. apply map_ext_in. intros i Hi. apply zseq_In in Hi. f_equal. cbn [concat]. rewrite skipn_app. unfold lenZ in Hx.
        rewrite (skipn_all2 x) by (clear IH; nia). cbn [app]. f_equal. clear IH. rewrite <- Hx. nia. }
  specialize (G 0). rewrite Z.add_0_l in G. etransitivity; [|exact G]. apply map_ext. intros i. rewrite Z.sub_0_r. reflexivity.
Qed.

Lemma list_passed : forall a l, holds_list a l -> with_rank 1 a (Ok (reals a)) = Ok l.
Proof. intros a l ((n & S) & V). unfold with_rank. rewrite S. change (lenZ [n] =? 1) with true. unfold reals. rewrite V. reflexivity. Qed.
Lemma rows_passed : forall a l, holds_rows a l -> with_rank 2 a (Ok (matrix_rows a)) = Ok l.
Proof.
  intros a l (n & m & S & HM & HN & HF & V). unfold with_rank. rewrite S. change (lenZ [n; m] =? 2) with true. cbn [andb]. f_equal.
  unfold matrix_rows, reals. rewrite S, V. apply (rows_of n m l); auto.
Qed.

Lemma centers_passed : forall shape positions s p, holds_list shape s -> holds_rows positions p ->
  (forall per, py_center shape positions (Some per) = center s p per) /\ py_center shape positions None = center s p true /\
  forall weights w, holds_list weights w ->
    (forall per, py_center_of_mass shape positions weights (Some per) = center_of_mass s p w per) /\
    py_center_of_mass shape positions weights None = center_of_mass s p w true.
Proof.
  intros shape positions s p HS HP. unfold py_center, py_center_of_mass. rewrite (list_passed _ _ HS), (rows_passed _ _ HP). cbn [bind].
  do 2 (split; [reflexivity|]). intros weights w HW. rewrite (list_passed _ _ HW). cbn [bind]. auto.
Qed.

Lemma labels_centers_passed : forall asrt labels names l n, integers (- 2 ^ 63) (2 ^ 63) labels l -> vector (- 2 ^ 63) (2 ^ 63) names n ->
  (forall per, py_labels_centers asrt labels names (Some per) = labels_centers asrt (i_shape l) (i_vals l) n per) /\
  py_labels_centers asrt labels names None = labels_centers asrt (i_shape l) (i_vals l) n true /\
  forall weights w, map (fun q => Q2R (this q)) (a_vals weights) = w ->
    (forall per, py_labels_centers_of_mass asrt labels weights names (Some per) = labels_centers_of_mass asrt (i_shape l) (i_vals l) (a_shape weights) w n per) /\
    py_labels_centers_of_mass asrt labels weights names None = labels_centers_of_mass asrt (i_shape l) (i_vals l) (a_shape weights) w n true.
Proof.
  intros asrt labels names l n HL HN. unfold py_labels_centers, py_labels_centers_of_mass. rewrite (integers_long _ _ HL), (vector_long _ _ HN). cbn [bind i_vals].
  do 2 (split; [reflexivity|]). intros weights w <-. auto.
Qed.

Lemma not_list : forall a, (forall n, a_shape a <> [n]) -> forall A (x : res A), with_rank 1 a x = Throw.
Proof.
  intros a HA A x. unfold with_rank. destruct (lenZ (a_shape a) =? 1) eqn:E; [|reflexivity]. exfalso. apply Z.eqb_eq in E.
  destruct (a_shape a) as [|n [|]]; unfold lenZ in E; cbn in E; try lia. apply (HA n). reflexivity.
Qed.
Lemma not_table : forall a, (forall n m, a_shape a <> [n; m]) -> forall A (x : res A), with_rank 2 a x = Throw.
Proof.
  intros a HA A x. unfold with_rank. destruct (lenZ (a_shape a) =? 2) eqn:E; [|reflexivity]. exfalso. apply Z.eqb_eq in E.
  destruct (a_shape a) as [|n [|m [|]]]; unfold lenZ in E; cbn in E; try lia. apply (HA n m). reflexivity.
Qed.

Lemma wrong_rank : forall a, 
  ((forall n, a_shape a <> [n]) -> forall b l, vector (- 2 ^ 31) (2 ^ 31) b l ->
     (forall fuel mode, py_path fuel a b mode = Throw /\ py_path fuel b a mode = Throw) /\
     (forall asrt shape per, py_dummy_circles asrt shape a b b per = Throw /\ py_dummy_circles asrt shape b a b per = Throw /\
                             py_dummy_circles asrt shape b b a per = Throw)) /\
  ((forall n, a_shape a <> [n]) -> forall labels i, integers (- 2 ^ 63) (2 ^ 63) labels i -> forall asrt weights per,
     py_labels_centers asrt labels a per = Throw /\ py_labels_centers_of_mass asrt labels weights a per = Throw) /\
  ((forall n, a_shape a <> [n]) -> forall b p per, py_center a b per = Throw /\ py_center_of_mass a b p per = Throw) /\
  ((forall n m, a_shape a <> [n; m]) -> forall b p per, py_center b a per = Throw /\ py_center_of_mass b a p per = Throw).
Proof.
  intros a. split; [|split; [|split]].
  - intros HA b l HB. unfold py_path, py_dummy_circles. rewrite !(vector_int _ _ HB), !(not_list a HA). cbn [bind]. auto 10.
  - intros HA labels i HL. unfold py_labels_centers, py_labels_centers_of_mass. rewrite (integers_long _ _ HL), !(not_list a HA). cbn [bind]. auto.
  - intros HA b p per. unfold py_center, py_center_of_mass. rewrite !(not_list a HA). auto.
  - intros HA b p per. unfold py_center, py_center_of_mass. rewrite !(not_table a HA). unfold with_rank. destruct (lenZ (a_shape b) =? 1); auto.
Qed.

Lemma path_refuted : exists xa xb out, (exists q, a_vals xa = [q] /\ (zq 0 + Q2Qc (1 # 2) < q)%Qc) /\
  py_path 100 xa xb None = Ok out /\ hd [] out = [0].
Proof.
  exists (mkarray Float64 [1] [Q2Qc (9 # 10)]), (mkarray Float64 [1] [zq 2]), [[0]; [1]; [2]].
  split; [eexists; split; [reflexivity|vm_compute; reflexivity]|]. split; [vm_compute; reflexivity|reflexivity].
Qed.

Lemma label_refuted : exists labels names p, (forall q, In q (a_vals labels) -> q <> zq 1) /\ a_vals names = [zq 1] /\
  py_labels_centers true labels names (Some false) = Ok [[Num p]] /\ p <> 0%R.
Proof.
  exists (mkarray Float64 [2] [zq 3; Q2Qc (3 # 2)]), (mkarray Int64 [1] [zq 1]), 1%R.
  split; [intros q [<-|[<-|[]]]; discriminate|]. split; [reflexivity|]. split; [|lra].
  unfold py_labels_centers.
  replace (to_long (mkarray Float64 [2] [zq 3; Q2Qc (3 # 2)])) with (Ok (mkimg [2] [3; 1])) by (vm_compute; reflexivity).
  replace (with_rank 1 (mkarray Int64 [1] [zq 1]) (to_long (mkarray Int64 [1] [zq 1]))) with (Ok (mkimg [1] [1])) by (vm_compute; reflexivity).
  cbn [bind i_shape i_vals]. unfold labels_centers. cbn [assertb length Nat.ltb Nat.leb mapM bind negb].
  replace (where_equal [2] [3; 1] 1) with [[1]] by (vm_compute; reflexivity).
  cbn. unfold axis_center, mean_of, column, quotient. cbn. destruct (Req_EM_T 1 0); [lra|]. repeat f_equal. lra.
Qed.
