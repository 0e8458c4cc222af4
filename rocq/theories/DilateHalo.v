(** * DilateHalo: proofs about the passes of a dilation of a periodic image *)

From Coq Require Import ZArith List Bool Lia Sorted.
From Verif Require Import Base BaseLemmas Cluster SpecCluster Kernel Array3 Array3Lemmas Dilate SpecDilate DilateProofs DilateTop DilateRule SpecDilateHalo.
Import ListNotations.
Open Scope Z_scope.

Lemma pixels_loop : forall n0 n1 n2, pixels (n0, n1, n2) = loop3 0 n0 0 n1 0 n2.
Proof. reflexivity. Qed.

Lemma pair3 : forall a b c a' b' c' : Z, a = a' -> b = b' -> c = c' -> (a, b, c) = (a', b', c').
Proof. intros. subst. reflexivity. Qed.

Lemma before_irrefl : forall x, ~ before x x.
Proof. intros [[a b] c]. cbn. lia. Qed.
Lemma before_asym : forall x y, before x y -> ~ before y x.
Proof. intros [[a b] c] [[a' b'] c']. cbn. lia. Qed.

Lemma filter_nil : forall A (P : A -> bool) l, (forall x, In x l -> P x = false) -> filter P l = [].
Proof.
  intros A P l. induction l as [|x l IH]; intros H; [reflexivity|]. cbn. rewrite (H x (or_introl eq_refl)). apply IH.
  intros y I. apply H. right. exact I.
Qed.

Lemma last_snoc : forall A (l : list A) x d, last (l ++ [x]) d = x.
Proof. intros A l x d. induction l as [|y l IH]; [reflexivity|]. cbn. destruct (l ++ [x]) eqn:E; [destruct l; discriminate|exact IH]. Qed.

Lemma sorted_tail : forall A (R : A -> A -> Prop) l x m, StronglySorted R (l ++ x :: m) -> forall y, In y m -> R x y.
Proof.
  intros A R l x m. induction l as [|a l IH]; intros H y I; cbn in H; inversion H as [|? ? H1 H2]; subst.
  - rewrite Forall_forall in H2. apply H2. exact I.
  - exact (IH H1 y I).
Qed.

Lemma last_filter_sorted : forall (P : place -> bool) (g : place -> Z) L x, StronglySorted before L -> In x L -> P x = true ->
  (forall y, In y L -> P y = true -> y = x \/ before y x) -> last (map g (filter P L)) 0 = g x.
Proof.
  intros P g L x S I Px M. apply in_split in I. destruct I as (l & m & ->).
  rewrite filter_app. change (filter P (x :: m)) with (if P x then x :: filter P m else filter P m).
  rewrite Px, (filter_nil place P m), map_app.
  - apply last_snoc.
  - intros y I. destruct (P y) eqn:E; [|reflexivity]. exfalso. pose proof (sorted_tail _ _ _ _ _ S y I) as B.
    destruct (M y) as [->|B']; auto.
    + apply in_or_app. right. right. exact I.
    + exact (before_irrefl _ B).
    + exact (before_asym _ _ B B').
Qed.

Section Halo.
Variables (n0 n1 n2 k0 k1 k2 : Z) (f kv iterations : list Z).
Hypothesis Pn : 1 <= n0 /\ 1 <= n1 /\ 1 <= n2.
Hypothesis Pk : 1 <= k0 < 2 ^ 62 /\ 1 <= k1 < 2 ^ 62 /\ 1 <= k2 < 2 ^ 62.
Hypothesis Fit : k0 / 2 <= n0 /\ k1 / 2 <= n1 /\ k2 / 2 <= n2.
Hypothesis Lf : lenZ f = n0 * n1 * n2.
Hypothesis Hnn : forall n, In n iterations -> 0 <= n.
Hypothesis HV : valid f iterations.
Hypothesis HIT : forall l, In l f -> l <> 0 -> it_of iterations l = zn iterations l.

Let p0 := (k0 - 1) / 2. Let q0 := k0 / 2.
Let p1 := (k1 - 1) / 2. Let q1 := k1 / 2.
Let p2 := (k2 - 1) / 2. Let q2 := k2 / 2.
Let K := mkarr k0 k1 k2 kv.
Let P := PP p0 q0 p1 q1 p2 q2.
Let f3 := mkarr n0 n1 n2 f.
Let ini (h i j : Z) := at3 0 f3 (h - p0) (i - p1) (j - p2).
Let n := (n0, n1, n2). Let k := (k0, k1, k2).
Local Notation Shp := (shp n0 n1 n2 p0 q0 p1 q1 p2 q2).
Local Notation Cell := (cell n0 n1 n2 p0 q0 p1 q1 p2 q2).
Local Notation Inner := (inner n0 n1 n2 p0 p1 p2).
Local Notation Src := (src p0 q0 p1 q1 p2 q2 K (it_of iterations)).
Let Inv := inv n0 n1 n2 p0 q0 p1 q1 p2 q2 K (it_of iterations) true ini.

Let Hpq : 0 <= p0 /\ 0 <= q0 /\ 0 <= p1 /\ 0 <= q1 /\ 0 <= p2 /\ 0 <= q2 /\
  p0 + q0 + 1 = k0 /\ p1 + q1 + 1 = k1 /\ p2 + q2 + 1 = k2 /\
  p0 <= n0 /\ q0 <= n0 /\ p1 <= n1 /\ q1 <= n1 /\ p2 <= n2 /\ q2 <= n2.
Proof. unfold p0, q0, p1, q1, p2, q2. Z.to_euclidean_division_equations; lia. Qed.

(** The padded array holds the field. *)
Definition holds (F : arr Z) (v : field) : Prop := forall h i j, Cell h i j -> at3 0 F h i j = v (h - p0, i - p1, j - p2).

Lemma above_holds : forall ax a G v, (ax, a) = (0%nat, Ax0) \/ (ax, a) = (1%nat, Ax1) \/ (ax, a) = (2%nat, Ax2) ->
  Shp G -> holds G v -> exists G', (if dim ax G <=? 1 then Ok G
     else let (p, q) := pad_of P ax in copy_slab ax p (dim ax G - q) q G) = Ok G' /\ Shp G' /\ holds G' (from_above n k a v).
Proof.
  intros ax a G v Ha HS HH. pose proof Hpq as (? & ? & ? & ? & ? & ? & ? & ? & ? & ? & ? & ? & ? & ? & ?).
  pose proof HS as (S0 & S1 & S2 & W).
  assert (Sm : dim ax G <= 1 -> holds G (from_above n k a v)).
  { intros E h i j C. rewrite (HH _ _ _ C). unfold from_above, above, n, k.
    destruct Ha as [E1|[E1|E1]]; injection E1 as -> ->; cbn [dim along] in *; fold q0 q1 q2;
    match goal with |- context [if ?c then _ else _] => replace c with false by (symmetry; apply andb_false_iff; unfold cell in C; lia) end; reflexivity. }
  destruct (dim ax G <=? 1) eqn:E; [exists G; split; [reflexivity|]; split; [exact HS|apply Sm; lia]|].
  assert (D : exists p q nn, pad_of P ax = (p, q) /\ dim ax G = p + nn + q /\ 0 <= p /\ 0 <= q /\ 1 <= nn /\
    forall h i j, coord ax h i j = p + along a (h - p0, i - p1, j - p2) /\ above k a = q /\ along a n = nn).
  { destruct Ha as [E1|[E1|E1]]; injection E1 as -> ->; cbn [pad_of P PP dim coord along n k];
    [exists p0, q0, n0|exists p1, q1, n1|exists p2, q2, n2]; repeat split; auto; try lia. }
  destruct D as (p & q & nn & -> & ED & ? & ? & ? & EC).
  destruct (copy_slab_ok n0 n1 n2 p0 q0 p1 q1 p2 q2 Pn ltac:(lia) ax p (dim ax G - q) q G HS) as (G' & E' & S' & V'); try lia.
  exists G'. split; [exact E'|]. split; [exact S'|]. intros h i j C. rewrite (V' _ _ _ C). destruct (EC h i j) as (-> & Ea & En).
  unfold from_above. rewrite Ea, En. rewrite ED. replace (p + nn + q - q - p) with nn by lia.
  assert (SHF : along a (h - p0, i - p1, j - p2) < q -> 0 <= along a (h - p0, i - p1, j - p2) ->
     at_shift ax nn G h i j = v (shift a nn (h - p0, i - p1, j - p2))).
  { intros X Y. destruct C as (C0 & C1 & C2).
    destruct Ha as [E1|[E1|E1]];
    [injection E1 as -> ->; change (above k Ax0) with q0 in Ea; change (along Ax0 n) with n0 in En;
      cbn [along at_shift shift] in *; rewrite HH by (unfold cell; lia)
    |injection E1 as -> ->; change (above k Ax1) with q1 in Ea; change (along Ax1 n) with n1 in En;
      cbn [along at_shift shift] in *; rewrite HH by (unfold cell; lia)
    |injection E1 as -> ->; change (above k Ax2) with q2 in Ea; change (along Ax2 n) with n2 in En;
      cbn [along at_shift shift] in *; rewrite HH by (unfold cell; lia)];
    f_equal; apply pair3; lia. }
  set (c := along a (h - p0, i - p1, j - p2)) in *. clearbody c.
  destruct ((p <=? p + c) && (p + c <? p + q)) eqn:E1.
  - rewrite andb_true_iff in E1. replace ((0 <=? c) && (c <? q)) with true by (symmetry; rewrite andb_true_iff; lia).
    rewrite (SHF ltac:(lia) ltac:(lia)), (HH _ _ _ C). reflexivity.
  - rewrite andb_false_iff in E1. replace ((0 <=? c) && (c <? q)) with false by (symmetry; rewrite andb_false_iff; lia).
    apply HH. exact C.
Qed.

Lemma below_holds : forall ax a G v, (ax, a) = (0%nat, Ax0) \/ (ax, a) = (1%nat, Ax1) \/ (ax, a) = (2%nat, Ax2) ->
  Shp G -> holds G v -> exists G', (if dim ax G <=? 1 then Ok G
     else let (p, q) := pad_of P ax in copy_slab ax (dim ax G - q - p) 0 p G) = Ok G' /\ Shp G' /\ holds G' (from_below n k a v).
Proof.
  intros ax a G v Ha HS HH. pose proof Hpq as (? & ? & ? & ? & ? & ? & ? & ? & ? & ? & ? & ? & ? & ? & ?).
  pose proof HS as (S0 & S1 & S2 & W).
  assert (Sm : dim ax G <= 1 -> holds G (from_below n k a v)).
  { intros E h i j C. rewrite (HH _ _ _ C). unfold from_below, below, n, k.
    destruct Ha as [E1|[E1|E1]]; injection E1 as -> ->; cbn [dim along] in *; fold p0 p1 p2;
    match goal with |- context [if ?c then _ else _] => replace c with false by (symmetry; apply andb_false_iff; unfold cell in C; lia) end; reflexivity. }
  destruct (dim ax G <=? 1) eqn:E; [exists G; split; [reflexivity|]; split; [exact HS|apply Sm; lia]|].
  assert (D : exists p q nn, pad_of P ax = (p, q) /\ dim ax G = p + nn + q /\ 0 <= p /\ 0 <= q /\ 1 <= nn /\ p <= nn /\
    forall h i j, coord ax h i j = p + along a (h - p0, i - p1, j - p2) /\ below k a = p /\ along a n = nn).
  { destruct Ha as [E1|[E1|E1]]; injection E1 as -> ->; cbn [pad_of P PP dim coord along n k];
    [exists p0, q0, n0|exists p1, q1, n1|exists p2, q2, n2]; repeat split; auto; try lia. }
  destruct D as (p & q & nn & -> & ED & ? & ? & ? & ? & EC).
  destruct (copy_slab_ok n0 n1 n2 p0 q0 p1 q1 p2 q2 Pn ltac:(lia) ax (dim ax G - q - p) 0 p G HS) as (G' & E' & S' & V'); try lia.
  exists G'. split; [exact E'|]. split; [exact S'|]. intros h i j C. rewrite (V' _ _ _ C). destruct (EC h i j) as (-> & Ea & En).
  unfold from_below. rewrite Ea, En. rewrite ED. replace (0 - (p + nn + q - q - p)) with (- nn) by lia.
  replace (p + nn + q - q - p) with nn by lia.
  assert (SHF : nn - p <= along a (h - p0, i - p1, j - p2) < nn ->
     at_shift ax (- nn) G h i j = v (shift a (- nn) (h - p0, i - p1, j - p2))).
  { intros X. destruct C as (C0 & C1 & C2).
    destruct Ha as [E1|[E1|E1]];
    [injection E1 as -> ->; change (below k Ax0) with p0 in Ea; change (along Ax0 n) with n0 in En;
      cbn [along at_shift shift] in *; rewrite HH by (unfold cell; lia)
    |injection E1 as -> ->; change (below k Ax1) with p1 in Ea; change (along Ax1 n) with n1 in En;
      cbn [along at_shift shift] in *; rewrite HH by (unfold cell; lia)
    |injection E1 as -> ->; change (below k Ax2) with p2 in Ea; change (along Ax2 n) with n2 in En;
      cbn [along at_shift shift] in *; rewrite HH by (unfold cell; lia)];
    f_equal; apply pair3; lia. }
  set (c := along a (h - p0, i - p1, j - p2)) in *. clearbody c.
  destruct ((nn <=? p + c) && (p + c <? nn + p)) eqn:E1.
  - rewrite andb_true_iff in E1. replace ((nn - p <=? c) && (c <? nn)) with true by (symmetry; rewrite andb_true_iff; lia).
    rewrite (SHF ltac:(lia)), (HH _ _ _ C). reflexivity.
  - rewrite andb_false_iff in E1. replace ((nn - p <=? c) && (c <? nn)) with false by (symmetry; rewrite andb_false_iff; lia).
    apply HH. exact C.
Qed.

Lemma fold_back_holds : forall G v, Shp G -> holds G v -> exists G', periodic_copy P G = Ok G' /\ Shp G' /\ holds G' (fold_back n k v).
Proof.
  intros G v S0 H0. unfold periodic_copy, above_to_below, below_to_above, fold_back. cbn [foldM].
  destruct (above_holds 0 Ax0 _ _ ltac:(auto) S0 H0) as (G1 & E1 & S1 & H1). rewrite E1, bind_Ok.
  destruct (above_holds 1 Ax1 _ _ ltac:(auto) S1 H1) as (G2 & E2 & S2 & H2). rewrite E2, bind_Ok.
  destruct (above_holds 2 Ax2 _ _ ltac:(auto) S2 H2) as (G3 & E3 & S3 & H3). rewrite E3, !bind_Ok.
  destruct (below_holds 0 Ax0 _ _ ltac:(auto) S3 H3) as (G4 & E4 & S4 & H4). rewrite E4, bind_Ok.
  destruct (below_holds 1 Ax1 _ _ ltac:(auto) S4 H4) as (G5 & E5 & S5 & H5). rewrite E5, bind_Ok.
  destruct (below_holds 2 Ax2 _ _ ltac:(auto) S5 H5) as (G6 & E6 & S6 & H6). rewrite E6, bind_Ok.
  exists G6. auto.
Qed.

Lemma covers_spec : forall h i j a b c, covers k kv (h - p0, i - p1, j - p2) (a - p0, b - p1, c - p2) = true <->
  h - p0 <= a <= h + q0 /\ i - p1 <= b <= i + q1 /\ j - p2 <= c <= j + q2 /\
  at3 0 K (a - (h - p0)) (b - (i - p1)) (c - (j - p2)) = 1.
Proof.
  intros h i j a b c. pose proof Hpq as (? & ? & ? & ? & ? & ? & ? & ? & ? & _). unfold covers, below, k. cbn [along]. fold p0 p1 p2.
  rewrite !andb_true_iff, Z.eqb_eq. unfold at3, flat3, K. cbn [d1 d2 dat].
  replace (a - p0 - (h - p0) + p0) with (a - (h - p0)) by lia.
  replace (b - p1 - (i - p1) + p1) with (b - (i - p1)) by lia.
  replace (c - p2 - (j - p2) + p2) with (c - (j - p2)) by lia.
  unfold zn. rewrite !Z.leb_le, !Z.ltb_lt. split.
  - intros ((((A1 & A2) & (A3 & A4)) & (A5 & A6)) & A7). split; [lia|]. split; [lia|]. split; [lia|]. exact A7.
  - intros (A1 & A2 & A3 & A7). split; [lia|exact A7].
Qed.

Lemma gives_src : forall i0 F v h i j a b c, holds F v -> Inner h i j ->
  (at3 0 F h i j <> 0 -> it_of iterations (at3 0 F h i j) = zn iterations (at3 0 F h i j)) ->
  (gives k kv iterations i0 v (h - p0, i - p1, j - p2) (a - p0, b - p1, c - p2) = true <-> Src F i0 h i j a b c).
Proof.
  intros i0 F v h i j a b c HH Hi HI. pose proof Hpq as (? & ? & ? & ? & ? & ? & _). unfold gives, src.
  rewrite <- (HH h i j) by (apply inner_cell; auto; lia). rewrite !andb_true_iff, negb_true_iff, Z.eqb_neq, Z.ltb_lt, covers_spec.
  split.
  - intros ((A & B) & C). rewrite HI by exact A. tauto.
  - intros (A & B & C). rewrite HI in B by exact A. tauto.
Qed.

Lemma pixels_In : forall x y z, In (x, y, z) (pixels n) <-> Inner (x + p0) (y + p1) (z + p2).
Proof. intros x y z. unfold n. rewrite pixels_loop, loop3_In. unfold inner. lia. Qed.

Lemma spread_holds : forall i0 F v, Shp F -> holds F v ->
  (forall h i j, Inner h i j -> at3 0 F h i j <> 0 -> iter_of iterations (at3 0 F h i j) = Ok (it_of iterations (at3 0 F h i j)) /\
     it_of iterations (at3 0 F h i j) = zn iterations (at3 0 F h i j)) ->
  exists G, foldM (dil_point i0 iterations K F P) (points p0 q0 p1 q1 p2 q2 F) F = Ok G /\ Shp G /\ holds G (spread n k kv iterations i0 v).
Proof.
  intros i0 F v HS HH HI. pose proof Hpq as (? & ? & ? & ? & ? & ? & _).
  destruct (fold_last n0 n1 n2 p0 q0 p1 q1 p2 q2 Pn ltac:(lia) K iterations (it_of iterations) F i0 (points p0 q0 p1 q1 p2 q2 F) HS) as (G & E & SG & V).
  - apply sorted_loop3.
  - intros h i j I. apply (points_In n0 n1 n2) in I; auto.
  - intros h i j I Z. apply (points_In n0 n1 n2) in I; auto. apply HI; auto.
  - exists G. split; [exact E|]. split; [exact SG|]. intros a b c C. destruct (V a b c C) as [V1 V2]. unfold spread.
    pose proof (HH a b c C) as Ev. rewrite Ev in V1, V2. destruct (v (a - p0, b - p1, c - p2) =? 0) eqn:Ez; [|apply V1; lia].
    destruct (V2 ltac:(lia)) as [(Z1 & Z2)|(h & i & j & I & Sx & El & M)].
    + rewrite filter_nil; [exact Z1|]. intros [[x y] z] I. apply pixels_In in I.
      match goal with |- ?t = false => destruct t eqn:Eg; [|reflexivity] end. exfalso.
      replace (x, y, z) with (x + p0 - p0, y + p1 - p1, z + p2 - p2) in Eg by (apply pair3; lia).
      apply (gives_src i0 F v) in Eg; auto; [|apply HI; auto]. eapply Z2; [|exact Eg]. apply (points_In n0 n1 n2); auto.
    + pose proof (proj1 (points_In n0 n1 n2 p0 q0 p1 q1 p2 q2 F h i j HS) I) as Hi. rewrite El, (HH h i j) by (apply inner_cell; auto; lia).
      symmetry. apply last_filter_sorted.
      * unfold n. rewrite pixels_loop. apply sorted_loop3.
      * apply pixels_In. rewrite !Z.sub_add. exact Hi.
      * apply (gives_src i0 F v); auto. apply HI; auto.
      * intros [[x y] z] I' Eg. apply pixels_In in I'.
        replace (x, y, z) with (x + p0 - p0, y + p1 - p1, z + p2 - p2) in Eg by (apply pair3; lia).
        apply (gives_src i0 F v) in Eg; auto; [|apply HI; auto].
        destruct (M _ _ _ (proj2 (points_In n0 n1 n2 p0 q0 p1 q1 p2 q2 F _ _ _ HS) I') Eg) as [X|X].
        -- left. injection X as <- <- <-. apply pair3; lia.
        -- right. cbn in X |- *. lia.
Qed.

Lemma pass_holds : forall i0 F v, 0 <= i0 -> Inv i0 F -> holds F v -> exists F', dil_iter true iterations K P F i0 = Ok F' /\ Inv (i0 + 1) F' /\
  holds F' (fold_back n k (spread n k kv iterations i0 v)).
Proof.
  intros i0 F v H0 HI HH. pose proof Hpq as (? & ? & ? & ? & ? & ? & ? & ? & ? & ? & ? & ? & ? & ? & ?).
  pose proof (v_shp _ _ _ _ _ _ _ _ _ _ _ _ _ _ _ HI) as HS.
  assert (VI : forall h i j, Inner h i j -> ini h i j <> 0 ->
     iter_of iterations (ini h i j) = Ok (it_of iterations (ini h i j)) /\ 0 <= it_of iterations (ini h i j)).
  { intros h i j Hi Hz. apply HV; auto. exact (ini_In n0 n1 n2 k0 k1 k2 f Pn Lf _ _ _ Hi). }
  assert (NF : true = true -> fits n0 n1 n2 p0 q0 p1 q1 p2 q2) by (intros _; unfold fits; lia).
  destruct (iter_ok n0 n1 n2 p0 q0 p1 q1 p2 q2 Pn ltac:(lia) K iterations (it_of iterations) true ini NF VI i0 F H0 HI) as (F' & E & HI' & _).
  exists F'. split; [exact E|]. split; [exact HI'|].
  destruct (spread_holds i0 F v HS HH) as (G & EG & SG & HG).
  { intros h i j Hi Hz. split.
    - exact (proj1 (valid_label n0 n1 n2 p0 q0 p1 q1 p2 q2 ltac:(lia) K iterations (it_of iterations) true ini VI i0 F h i j HI Hi Hz)).
    - apply HIT; [|exact Hz].
      pose proof (v_rch _ _ _ _ _ _ _ _ _ _ _ _ _ _ _ HI _ _ _ (inner_dom n0 n1 n2 p0 q0 p1 q1 p2 q2 ltac:(lia) true _ _ _ Hi) Hz) as R.
      apply rch_label in R. destruct R as (h' & i' & j' & Hi' & El). rewrite <- El. exact (ini_In n0 n1 n2 k0 k1 k2 f Pn Lf _ _ _ Hi'). }
  destruct (fold_back_holds G _ SG HG) as (G' & E' & _ & HG').
  unfold dil_iter, PP in E. change ((p0, q0), (p1, q1), (p2, q2)) with P in E.
  fold (points p0 q0 p1 q1 p2 q2 F) in E. rewrite EG, bind_Ok, E' in E. injection E as <-. exact HG'.
Qed.

Lemma passes_run : forall F0 v, Inv 0 F0 -> holds F0 v -> forall m, exists F, foldM (dil_iter true iterations K P) (zrange 0 (Z.of_nat m)) F0 = Ok F /\
  Inv (Z.of_nat m) F /\ holds F (passes n k kv iterations m v).
Proof.
  intros F0 v H0 HH m. unfold zrange. rewrite Z.sub_0_r, Nat2Z.id. induction m as [|m (F & E & HI & G)].
  - exists F0. split; [reflexivity|]. split; [exact H0|exact HH].
  - destruct (pass_holds (Z.of_nat m) F _ ltac:(lia) HI G) as (F' & E' & HI' & G'). exists F'.
    rewrite zseq_S, foldM_app, E, bind_Ok. cbn [foldM]. rewrite Z.add_0_l, E', bind_Ok. split; [reflexivity|].
    replace (Z.of_nat (S m)) with (Z.of_nat m + 1) by lia. split; [exact HI'|]. exact G'.
Qed.

Lemma sorted_ext : forall a b : list place, StronglySorted before a -> StronglySorted before b -> (forall x, In x a <-> In x b) -> a = b.
Proof.
  induction a as [|x a IH]; intros [|y b] Ha Hb H; auto.
  - exfalso. apply (proj2 (H y)). simpl; auto.
  - exfalso. apply (proj1 (H x)). simpl; auto.
  - apply StronglySorted_inv in Ha. destruct Ha as [Ha Fa]. apply StronglySorted_inv in Hb. destruct Hb as [Hb Fb].
    rewrite Forall_forall in Fa, Fb. assert (x = y) as <-.
    { destruct (proj1 (H x) (or_introl eq_refl)) as [|I]; [auto|]. destruct (proj2 (H y) (or_introl eq_refl)) as [|J]; [auto|].
      exfalso. exact (before_asym _ _ (Fa _ J) (Fb _ I)). }
    f_equal. apply IH; auto. intros z. split; intros I.
    + destruct (proj1 (H z) (or_intror I)) as [<-|]; [|auto]. exfalso. exact (before_irrefl _ (Fa _ I)).
    + destruct (proj2 (H z) (or_intror I)) as [<-|]; [|auto]. exfalso. exact (before_irrefl _ (Fb _ I)).
Qed.

Lemma pixels_decode : pixels n = map (fun p => (p / (n1 * n2), p / n2 mod n1, p mod n2)) (zseq 0 (Z.to_nat (n0 * n1 * n2))).
Proof.
  apply sorted_ext.
  - unfold n. rewrite pixels_loop. apply sorted_loop3.
  - assert (D : forall x y, 0 <= x < n0 * n1 * n2 -> 0 <= y < n0 * n1 * n2 -> x < y ->
       before (x / (n1 * n2), x / n2 mod n1, x mod n2) (y / (n1 * n2), y / n2 mod n1, y mod n2)).
    { intros x y Rx Ry Lt. destruct (flat3_encode n0 n1 n2 x) as (X0 & X1 & X2 & X3); try lia.
      destruct (flat3_encode n0 n1 n2 y) as (Y0 & Y1 & Y2 & Y3); try lia.
      set (a := x / (n1 * n2)) in *. set (b := x / n2 mod n1) in *. set (c := x mod n2) in *.
      set (a' := y / (n1 * n2)) in *. set (b' := y / n2 mod n1) in *. set (c' := y mod n2) in *.
      assert (T : before (a, b, c) (a', b', c') \/ (a, b, c) = (a', b', c') \/ before (a', b', c') (a, b, c)).
      { cbn. destruct (Z.lt_trichotomy a a') as [|[->|]]; [lia| |lia]. destruct (Z.lt_trichotomy b b') as [|[->|]]; [lia| |lia].
        destruct (Z.lt_trichotomy c c') as [|[->|]]; [lia|auto|lia]. }
      destruct T as [T|[T|T]]; [exact T| |].
      - injection T as -> -> ->. lia.
      - pose proof (before_flat n0 n1 n2 a' b' c' a b c ltac:(lia) ltac:(lia) T). lia. }
    assert (G : forall m s, 0 <= s -> s + Z.of_nat m <= n0 * n1 * n2 -> StronglySorted before (map (fun p => (p / (n1 * n2), p / n2 mod n1, p mod n2)) (zseq s m))).
    { induction m as [|m IH]; intros s Hs Hm; [constructor|]. cbn [zseq map]. constructor; [apply IH; lia|].
      apply Forall_forall. intros x I. apply in_map_iff in I. destruct I as (y & <- & I). apply zseq_In in I. apply D; lia. }
    apply G; [lia|]. nia.
  - intros [[x y] z]. unfold n. rewrite pixels_loop, loop3_In, in_map_iff. split.
    + intros (X & Y & Z). exists (flat3 n1 n2 x y z). destruct (flat3_decode n1 n2 x y z) as (-> & -> & ->); auto.
      split; [reflexivity|]. apply zseq_In. pose proof (flat3_range n0 n1 n2 x y z X Y Z). lia.
    + intros (p & E & I). apply zseq_In in I. destruct (flat3_encode n0 n1 n2 p) as (X0 & X1 & X2 & X3); try lia.
      injection E as <- <- <-. lia.
Qed.

Lemma crop_pixels : forall F v, Shp F -> holds F v -> dat (crop P F) = map v (pixels n).
Proof.
  intros F v HS HH. pose proof HS as (S0 & S1 & S2 & W). pose proof Hpq as (? & ? & ? & ? & ? & ? & _).
  unfold crop, P, PP, tab. cbn [dat].
  replace (d0 F - q0 - p0) with n0 by lia. replace (d1 F - q1 - p1) with n1 by lia. replace (d2 F - q2 - p2) with n2 by lia.
  rewrite pixels_decode, map_map. apply map_ext_in. intros p I. apply zseq_In in I.
  destruct (flat3_encode n0 n1 n2 p) as (X0 & X1 & X2 & X3); try lia.
  rewrite HH by (unfold cell; lia). f_equal. apply pair3; lia.
Qed.

Lemma tiled_holds : forall F, (forall h i j, Cell h i j -> at3 0 F h i j = ini (w p0 n0 h) (w p1 n1 i) (w p2 n2 j)) -> holds F (tiled n f).
Proof.
  intros F H h i j C. rewrite (H _ _ _ C). unfold ini, w, tiled, n, at3, f3, flat3, zn. cbn [along d1 d2 dat].
  replace (p0 + (h - p0) mod n0 - p0) with ((h - p0) mod n0) by lia.
  replace (p1 + (i - p1) mod n1 - p1) with ((i - p1) mod n1) by lia.
  replace (p2 + (j - p2) mod n2 - p2) with ((j - p2) mod n2) by lia. reflexivity.
Qed.
End Halo.

Lemma shape3_triple : forall s a b c, shape3 s = Ok (a, b, c) -> triple s = (a, b, c).
Proof. intros [|x [|y [|z [|u s]]]] a b c H; cbn in *; try discriminate; injection H as <- <- <-; reflexivity. Qed.

Lemma halo_ok : forall asrt shape f ks kv iterations, dilatable true shape f ks kv iterations ->
  exists n, In (Z.of_nat n) iterations /\ (forall m, In m iterations -> m <= Z.of_nat n) /\
    dilate asrt shape f ks kv iterations true =
      Ok (map (passes (triple shape) (triple ks) kv iterations n (tiled (triple shape) f)) (pixels (triple shape))).
Proof.
  intros asrt shape f ks kv iterations HD. destruct (dilate_ok asrt shape f ks kv iterations true HD) as (ret & n & E & En & _).
  destruct HD as (Hrank & (Hpos & Lf) & HL & (Kpos & Lk) & Hk01 & Hfit & Hit & Hnn & Hlab).
  destruct (amax_ok iterations Hit) as (n' & En' & Hin & Hmax). rewrite En in En'. injection En' as <-.
  pose proof (Hnn _ Hin) as Hn. exists (Z.to_nat n). rewrite Z2Nat.id by exact Hn. split; [exact Hin|]. split; [exact Hmax|].
  rewrite E. f_equal.
  unfold dilate in E. do 4 (apply bind_ok in E; destruct E as (? & _ & E)).
  unfold atleast_3d in E. apply bind_ok in E. destruct E as (K & EK & E). apply bind_ok in EK.
  destruct EK as ([[k0 k1] k2] & Hk & EK). injection EK as <-.
  apply bind_ok in E. destruct E as (f3 & Ef & E). apply bind_ok in Ef. destruct Ef as ([[n0 n1] n2] & Hs & Ef). injection Ef as <-.
  cbn [d0 d1 d2] in E. match goal with X : (if ?c then _ else _) = _ |- _ => destruct c; [discriminate|] end.
  pose proof (shape3_pos _ _ _ _ Hs Hpos) as Pn. pose proof (shape3_kernel _ _ _ _ Hk Kpos) as Pk.
  pose proof (half_fits3 _ _ _ _ _ _ _ _ HL Hs Hk Pn (Hfit eq_refl)) as Fit.
  rewrite (shape3_prod _ _ _ _ Hs) in Lf. rewrite (shape3_prod _ _ _ _ Hk) in Lk.
  rewrite (pad_P k0 k1 k2 Pk) in E. apply bind_ok in E. destruct E as (F0 & E0 & E). rewrite En, bind_Ok in E.
  apply bind_ok in E. destruct E as (F & EF & E). injection E as <-.
  assert (HIT : forall l, In l f -> l <> 0 -> it_of iterations l = zn iterations l).
  { intros l Hl H0. unfold it_of. destruct (lenZ iterations =? 1) eqn:E1; auto. specialize (Hlab l Hl). lia. }
  assert (HV : valid f iterations).
  { intros l Hl H0. specialize (Hlab l Hl) as HR. unfold iter_of, it_of. destruct (lenZ iterations =? 1) eqn:E1; [lia|].
    rewrite vget_ok by auto. split; auto. apply Hnn. apply zn_In. auto. }
  assert (FT : true = true -> fits n0 n1 n2 ((k0 - 1) / 2) (k0 / 2) ((k1 - 1) / 2) (k1 / 2) ((k2 - 1) / 2) (k2 / 2)).
  { intros _. unfold fits. Z.to_euclidean_division_equations. lia. }
  destruct (padded_ok n0 n1 n2 k0 k1 k2 f kv iterations true Pn Pk Hnn FT) as (F1 & E1 & S1 & V1).
  unfold padded in E1. rewrite E0 in E1. injection E1 as <-.
  pose proof (Inv0 n0 n1 n2 k0 k1 k2 f kv iterations true Pn Pk Lf Hnn HV FT F0 S1 V1) as I0.
  pose proof (tiled_holds n0 n1 n2 k0 k1 k2 f F0 V1) as T0.
  destruct (passes_run n0 n1 n2 k0 k1 k2 f kv iterations Pn Pk Fit Lf Hnn HV HIT F0 _ I0 T0 (Z.to_nat n)) as (F2 & E2 & I2 & H2).
  rewrite Z2Nat.id in E2 by exact Hn. rewrite EF in E2. injection E2 as <-.
  rewrite (shape3_triple _ _ _ _ Hs), (shape3_triple _ _ _ _ Hk).
  eapply (crop_pixels n0 n1 n2 k0 k1 k2); try eassumption. exact (v_shp _ _ _ _ _ _ _ _ _ _ _ _ _ _ _ I2).
Qed.
