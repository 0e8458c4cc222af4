(** * DilateRule: proofs about one iteration of a dilation *)

From Coq Require Import ZArith List Bool Lia Sorted.
From Verif Require Import Base BaseLemmas Cluster SpecCluster Kernel Array3 Array3Lemmas Dilate SpecDilate SpecDilateRule DilateProofs DilateTop.
Import ListNotations.
Open Scope Z_scope.

Definition before (x y : Z * Z * Z) : Prop :=
  let '(h, i, j) := x in let '(h', i', j') := y in h < h' \/ h = h' /\ (i < i' \/ i = i' /\ j < j').

Lemma sorted_app : forall A (R : A -> A -> Prop) l m, StronglySorted R l -> StronglySorted R m -> (forall x y, In x l -> In y m -> R x y) ->
  StronglySorted R (l ++ m).
Proof.
  intros A R l m Hl Hm H. induction Hl as [|a l Hl IH F]; [exact Hm|]. cbn. constructor.
  - apply IH. intros x y I J. apply H; [right; exact I|exact J].
  - apply Forall_app. split; [exact F|]. apply Forall_forall. intros y J. apply H; [left; reflexivity|exact J].
Qed.
Lemma sorted_flat_map : forall A B (R : A -> A -> Prop) (f : B -> list A) (S : B -> B -> Prop) l, StronglySorted S l ->
  (forall b, In b l -> StronglySorted R (f b)) -> (forall b c x y, S b c -> In x (f b) -> In y (f c) -> R x y) -> StronglySorted R (flat_map f l).
Proof.
  intros A B R f S l H Hf Hx. induction H as [|b l Hl IH F]; [constructor|]. cbn. apply sorted_app.
  - apply Hf. left. reflexivity.
  - apply IH. intros c I. apply Hf. right. exact I.
  - intros x y I J. apply in_flat_map in J. destruct J as (c & J & K). rewrite Forall_forall in F. exact (Hx b c x y (F c J) I K).
Qed.
Lemma sorted_map : forall A B (R : A -> A -> Prop) (f : B -> A) (S : B -> B -> Prop) l, StronglySorted S l ->
  (forall b c, S b c -> R (f b) (f c)) -> StronglySorted R (map f l).
Proof.
  intros A B R f S l H Hx. induction H as [|b l Hl IH F]; [constructor|]. cbn. constructor; [exact IH|].
  apply Forall_forall. intros y J. apply in_map_iff in J. destruct J as (c & <- & J). rewrite Forall_forall in F. apply Hx. apply F. exact J.
Qed.
Lemma sorted_zseq : forall n a, StronglySorted Z.lt (zseq a n).
Proof.
  induction n as [|n IH]; intros a; [constructor|]. cbn. constructor; [apply IH|]. apply Forall_forall. intros x I. apply zseq_In in I. lia.
Qed.
Lemma sorted_loop3 : forall h0 h1 i0 i1 j0 j1, StronglySorted before (loop3 h0 h1 i0 i1 j0 j1).
Proof.
  intros. unfold loop3. apply sorted_flat_map with (S := Z.lt); [apply sorted_zseq| |].
  - intros h _. apply sorted_flat_map with (S := Z.lt); [apply sorted_zseq| |].
    + intros i _. apply sorted_map with (S := Z.lt); [apply sorted_zseq|]. intros b c H. cbn. lia.
    + intros b c x y H I J. apply in_map_iff in I. apply in_map_iff in J. destruct I as (? & <- & _). destruct J as (? & <- & _). cbn. lia.
  - intros b c x y H I J. apply in_flat_map in I. apply in_flat_map in J. destruct I as (? & _ & I). destruct J as (? & _ & J).
    apply in_map_iff in I. apply in_map_iff in J. destruct I as (? & <- & _). destruct J as (? & <- & _). cbn. lia.
Qed.

Section Last.
Variables n0 n1 n2 p0 q0 p1 q1 p2 q2 : Z.
Hypothesis Hn : 1 <= n0 /\ 1 <= n1 /\ 1 <= n2.
Hypothesis Hp : 0 <= p0 /\ 0 <= q0 /\ 0 <= p1 /\ 0 <= q1 /\ 0 <= p2 /\ 0 <= q2.
Variable K : arr Z.
Variable iterations : list Z.
Variable it : Z -> Z.

Local Notation Src := (src p0 q0 p1 q1 p2 q2 K it).
Local Notation Shp := (shp n0 n1 n2 p0 q0 p1 q1 p2 q2).
Local Notation Cell := (cell n0 n1 n2 p0 q0 p1 q1 p2 q2).
Local Notation Inner := (inner n0 n1 n2 p0 p1 p2).
Local Notation P := (PP p0 q0 p1 q1 p2 q2).

Lemma src_dec : forall F iter h i j a b c, Src F iter h i j a b c \/ ~ Src F iter h i j a b c.
Proof.
  intros F iter h i j a b c. unfold src. destruct (Z.eq_dec (at3 0 F h i j) 0); [right; tauto|].
  destruct (Z_lt_dec iter (it (at3 0 F h i j))); [|right; tauto].
  destruct (Z_le_dec (h - p0) a), (Z_le_dec a (h + q0)), (Z_le_dec (i - p1) b), (Z_le_dec b (i + q1)),
    (Z_le_dec (j - p2) c), (Z_le_dec c (j + q2)); try (right; lia).
  destruct (Z.eq_dec (at3 0 K (a - (h - p0)) (b - (i - p1)) (c - (j - p2))) 1); [left; auto 10|right; tauto].
Qed.

(** The cell takes the label of the last source. *)
Definition last_wins (F : arr Z) (iter : Z) (L : list (Z * Z * Z)) (G : arr Z) : Prop :=
  forall a b c, Cell a b c ->
    (at3 0 F a b c <> 0 -> at3 0 G a b c = at3 0 F a b c) /\
    (at3 0 F a b c = 0 ->
       (at3 0 G a b c = 0 /\ forall h i j, In (h, i, j) L -> ~ Src F iter h i j a b c) \/
       (exists h i j, In (h, i, j) L /\ Src F iter h i j a b c /\ at3 0 G a b c = at3 0 F h i j /\
          forall h' i' j', In (h', i', j') L -> Src F iter h' i' j' a b c -> (h', i', j') = (h, i, j) \/ before (h', i', j') (h, i, j))).

Lemma sorted_snoc : forall A (R : A -> A -> Prop) l x, StronglySorted R (l ++ [x]) -> StronglySorted R l /\ forall y, In y l -> R y x.
Proof.
  intros A R l x. induction l as [|a l IH]; intros H; cbn in H; [split; [constructor|intros y []]|].
  inversion H as [|? ? H1 H2]; subst. destruct (IH H1) as [I1 I2]. apply Forall_app in H2. destruct H2 as [H2 H3]. split.
  - constructor; auto.
  - intros y [<-|I]; [inversion H3; auto|auto].
Qed.

Lemma fold_last : forall F iter L, Shp F -> StronglySorted before L ->
  (forall h i j, In (h, i, j) L -> Inner h i j) ->
  (forall h i j, In (h, i, j) L -> at3 0 F h i j <> 0 -> iter_of iterations (at3 0 F h i j) = Ok (it (at3 0 F h i j))) ->
  exists G, foldM (dil_point iter iterations K F P) L F = Ok G /\ Shp G /\ last_wins F iter L G.
Proof.
  intros F iter L HF. induction L as [|x L IH] using rev_ind; intros HO HI HT.
  - exists F. split; auto. split; auto. intros a b c Hc. split; [auto|]. intros Hz. left. split; [auto|].
    intros h i j Hin; simpl in Hin; tauto.
  - destruct (sorted_snoc _ _ _ _ HO) as [HO1 HO2].
    destruct IH as (G & E & HG & HSp); [exact HO1| | |].
    { intros; apply HI; apply in_or_app; auto. } { intros; apply HT; auto; apply in_or_app; auto. }
    rewrite foldM_app, E, bind_Ok. cbn [foldM]. destruct x as [[h i] j].
    assert (Hin : Inner h i j) by (apply HI; apply in_or_app; simpl; auto).
    assert (Hc0 : Cell h i j) by (apply inner_cell; auto).
    pose proof HF as (S0 & S1 & S2 & W).
    assert (Pt : exists G', dil_point iter iterations K F P G (h, i, j) = Ok G' /\ Shp G' /\
       forall a b c, Cell a b c ->
         (at3 0 F a b c = 0 -> Src F iter h i j a b c -> at3 0 G' a b c = at3 0 F h i j) /\
         ((at3 0 F a b c <> 0 \/ ~ Src F iter h i j a b c) -> at3 0 G' a b c = at3 0 G a b c)).
    { unfold dil_point, PP. rewrite (aget_ok _ 0) by (auto; unfold inr, cell in *; lia). rewrite bind_Ok.
      destruct (at3 0 F h i j =? 0) eqn:Ez.
      - exists G. split; auto. split; auto. intros a b c Hc. split; auto. intros _ (X & _). lia.
      - rewrite HT by (try (apply in_or_app; simpl; auto); lia). rewrite bind_Ok.
        destruct (it (at3 0 F h i j) <=? iter) eqn:Ei.
        + exists G. split; auto. split; auto. intros a b c Hc. split; auto. intros _ (_ & X & _). lia.
        + assert (inb F (h - p0) (i - p1) (j - p2) && inb F (h + q0) (i + q1) (j + q2) = true) as ->.
          { apply andb_true_iff. rewrite !inb_inr. unfold inr, inner in *. lia. }
          pose proof HG as (T0 & T1 & T2 & WG).
          eexists. split; [reflexivity|]. split.
          { unfold shp. cbn [d0 d1 d2]. split; [auto|]. split; [auto|]. split; [auto|]. apply tab_wfa; lia. }
          intros a b c (C0 & C1 & C2). rewrite at3_tab by lia.
          match goal with |- context [if ?c then _ else _] => destruct c eqn:Ec end.
          * rewrite !andb_true_iff in Ec.
            match goal with |- context [if ?c then _ else _] => destruct c eqn:Ek end.
            -- rewrite andb_true_iff in Ek. split; auto. intros [X|X]; [lia|]. exfalso. apply X. unfold src.
               split; [lia|]. split; [lia|]. split; [lia|]. split; [lia|]. split; [lia|]. lia.
            -- rewrite andb_false_iff in Ek. split; auto. intros Hz (_ & _ & _ & _ & _ & X). lia.
          * split; auto. intros _ (_ & _ & X1 & X2 & X3 & _). rewrite !andb_false_iff in Ec. lia. }
    destruct Pt as (G' & E' & HG' & V). rewrite E', bind_Ok. exists G'. split; auto. split; auto.
    intros a b c Hc. destruct (HSp a b c Hc) as [P1 P2]. destruct (V a b c Hc) as [V1 V2]. split.
    + intros Hz. rewrite V2 by auto. auto.
    + intros Hz. destruct (src_dec F iter h i j a b c) as [D|D].
      * right. exists h, i, j. split; [apply in_or_app; simpl; auto|]. split; auto. split; auto.
        intros h' i' j' Hin' _. apply in_app_or in Hin'. destruct Hin' as [Hin'|[Hin'|[]]]; [right; apply HO2; exact Hin'|left; auto].
      * rewrite V2 by auto. destruct (P2 Hz) as [[X1 X2]|(h' & i' & j' & X1 & X2 & X3 & X4)].
        -- left. split; auto. intros h' i' j' Hin' S. apply in_app_or in Hin'. destruct Hin' as [Hin'|[Hin'|[]]].
           ++ eapply X2; eauto.
           ++ injection Hin' as -> -> ->. auto.
        -- right. exists h', i', j'. split; [apply in_or_app; auto|]. split; auto. split; auto.
           intros h2 i2 j2 Hin' S. apply in_app_or in Hin'. destruct Hin' as [Hin'|[Hin'|[]]]; [auto|]. injection Hin' as -> -> ->. tauto.
Qed.

Lemma iter_last : forall F iter, Shp F ->
  (forall h i j, Inner h i j -> at3 0 F h i j <> 0 -> iter_of iterations (at3 0 F h i j) = Ok (it (at3 0 F h i j))) ->
  exists G, dil_iter false iterations K P F iter = Ok G /\ Shp G /\ last_wins F iter (points p0 q0 p1 q1 p2 q2 F) G.
Proof.
  intros F iter HS HT. destruct (fold_last F iter (points p0 q0 p1 q1 p2 q2 F) HS) as (G & E & SG & V).
  - apply sorted_loop3.
  - intros h i j I. apply (points_In n0 n1 n2) in I; auto.
  - intros h i j I. apply (points_In n0 n1 n2) in I; auto.
  - exists G. split; [|split; auto]. unfold dil_iter, PP. change ((p0, q0), (p1, q1), (p2, q2)) with P.
    fold (points p0 q0 p1 q1 p2 q2 F). rewrite E, bind_Ok. reflexivity.
Qed.
End Last.

Lemma before_flat : forall n0 n1 n2 h i j h' i' j', 0 <= h < n0 /\ 0 <= i < n1 /\ 0 <= j < n2 -> 0 <= h' < n0 /\ 0 <= i' < n1 /\ 0 <= j' < n2 ->
  before (h, i, j) (h', i', j') -> flat3 n1 n2 h i j < flat3 n1 n2 h' i' j'.
Proof.
  intros n0 n1 n2 h i j h' i' j' R R' H. unfold flat3. cbn in H.
  assert (X : h * n1 + i + 1 <= h' * n1 + i' \/ h * n1 + i = h' * n1 + i' /\ j < j').
  { destruct H as [H|(-> & [H|(-> & H)])]; [left|left|right]; nia. }
  destruct X as [X|[-> X]]; nia.
Qed.

Lemma list_zn : forall a b : list Z, lenZ a = lenZ b -> (forall p, 0 <= p < lenZ a -> zn a p = zn b p) -> a = b.
Proof.
  intros a b L H. apply nth_ext with (d := 0) (d' := 0); [unfold lenZ in L; lia|].
  intros n Hn. specialize (H (Z.of_nat n)). unfold zn in H. rewrite Nat2Z.id in H. apply H. unfold lenZ. lia.
Qed.

Section Flat.
Variables (n0 n1 n2 k0 k1 k2 : Z) (f kv iterations shape ks : list Z).
Hypothesis Pn : 1 <= n0 /\ 1 <= n1 /\ 1 <= n2.
Hypothesis Pk : 1 <= k0 < 2 ^ 62 /\ 1 <= k1 < 2 ^ 62 /\ 1 <= k2 < 2 ^ 62.
Hypothesis Lf : lenZ f = n0 * n1 * n2.
Hypothesis Lk : lenZ kv = k0 * k1 * k2.
Hypothesis Hnn : forall n, In n iterations -> 0 <= n.
Hypothesis Hs : shape3 shape = Ok (n0, n1, n2).
Hypothesis Hk : shape3 ks = Ok (k0, k1, k2).
Hypothesis HL : length ks = length shape.
Hypothesis HV : valid f iterations.
Hypothesis HIT : forall l, In l f -> l <> 0 -> it_of iterations l = zn iterations l.

Let p0 := (k0 - 1) / 2. Let q0 := k0 / 2.
Let p1 := (k1 - 1) / 2. Let q1 := k1 / 2.
Let p2 := (k2 - 1) / 2. Let q2 := k2 / 2.
Let K := mkarr k0 k1 k2 kv.
Let P := PP p0 q0 p1 q1 p2 q2.
Let f3 := mkarr n0 n1 n2 f.
Let ini (h i j : Z) := at3 0 f3 (h - p0) (i - p1) (j - p2).
Let Inv := inv n0 n1 n2 p0 q0 p1 q1 p2 q2 K (it_of iterations) false ini.

Let Hpq : 0 <= p0 /\ 0 <= q0 /\ 0 <= p1 /\ 0 <= q1 /\ 0 <= p2 /\ 0 <= q2.
Proof. unfold p0, q0, p1, q1, p2, q2. Z.to_euclidean_division_equations; lia. Qed.

Lemma grown_crop : forall n F, 0 <= n -> Inv n F -> exists F', dil_iter false iterations K P F n = Ok F' /\ Inv (n + 1) F' /\
  grown false shape ks kv iterations n (dat (crop P F)) (dat (crop P F')).
Proof.
  intros n F Hn HI. pose proof (v_shp _ _ _ _ _ _ _ _ _ _ _ _ _ _ _ HI) as HS.
  assert (VI : forall h i j, inner n0 n1 n2 p0 p1 p2 h i j -> ini h i j <> 0 ->
     iter_of iterations (ini h i j) = Ok (it_of iterations (ini h i j)) /\ 0 <= it_of iterations (ini h i j)).
  { intros h i j Hi Hz. apply HV; auto. exact (ini_In n0 n1 n2 k0 k1 k2 f Pn Lf _ _ _ Hi). }
  assert (NF : false = true -> fits n0 n1 n2 p0 q0 p1 q1 p2 q2) by discriminate.
  destruct (iter_ok n0 n1 n2 p0 q0 p1 q1 p2 q2 Pn Hpq K iterations (it_of iterations) false ini NF VI n F Hn HI) as (F' & E & HI' & _).
  destruct (iter_last n0 n1 n2 p0 q0 p1 q1 p2 q2 Pn Hpq K iterations (it_of iterations) F n HS) as (G & EG & SG & LW).
  { intros h i j Hi Hz. exact (proj1 (valid_label n0 n1 n2 p0 q0 p1 q1 p2 q2 Hpq K iterations (it_of iterations) false ini VI n F h i j HI Hi Hz)). }
  fold P in E, EG. rewrite E in EG. injection EG as <-. exists F'. split; [exact E|]. split; [exact HI'|].
  assert (CR : forall H p, shp n0 n1 n2 p0 q0 p1 q1 p2 q2 H -> 0 <= p < n0 * n1 * n2 ->
     zn (dat (crop P H)) p = at3 0 H (p / (n1 * n2) + p0) (p / n2 mod n1 + p1) (p mod n2 + p2)).
  { intros H p SH Hp. exact (zn_crop n0 n1 n2 k0 k1 k2 Pn H p SH Hp). }
  assert (XF : forall h i j, inner n0 n1 n2 p0 p1 p2 h i j -> 0 <= flat3 n1 n2 (h - p0) (i - p1) (j - p2) < n0 * n1 * n2 /\
     at3 0 F h i j = zn (dat (crop P F)) (flat3 n1 n2 (h - p0) (i - p1) (j - p2))).
  { intros h i j (I0 & I1 & I2). assert (R : 0 <= flat3 n1 n2 (h - p0) (i - p1) (j - p2) < n0 * n1 * n2) by (apply flat3_range; lia).
    split; [exact R|]. rewrite CR by auto. destruct (flat3_decode n1 n2 (h - p0) (i - p1) (j - p2)) as (-> & -> & ->); [lia|lia|].
    f_equal; lia. }
  assert (LB : forall p, 0 <= p < n0 * n1 * n2 -> zn (dat (crop P F)) p <> 0 -> In (zn (dat (crop P F)) p) f).
  { intros p Hp Hz. rewrite CR in * by auto. destruct (flat3_encode n0 n1 n2 p) as (X0 & X1 & X2 & X3); try lia.
    assert (Hi : inner n0 n1 n2 p0 p1 p2 (p / (n1 * n2) + p0) (p / n2 mod n1 + p1) (p mod n2 + p2)) by (unfold inner; lia).
    pose proof (v_rch _ _ _ _ _ _ _ _ _ _ _ _ _ _ _ HI _ _ _ (inner_dom n0 n1 n2 p0 q0 p1 q1 p2 q2 Hpq false _ _ _ Hi) Hz) as R.
    apply rch_label in R. destruct R as (h' & i' & j' & Hi' & El). rewrite <- El. exact (ini_In n0 n1 n2 k0 k1 k2 f Pn Lf _ _ _ Hi'). }
  (* donors are the sources *)
  assert (SD : forall h i j a b c, inner n0 n1 n2 p0 p1 p2 h i j -> inner n0 n1 n2 p0 p1 p2 a b c ->
     src p0 q0 p1 q1 p2 q2 K (it_of iterations) F n h i j a b c ->
     donor false shape ks kv iterations n (dat (crop P F)) (flat3 n1 n2 (h - p0) (i - p1) (j - p2)) (flat3 n1 n2 (a - p0) (b - p1) (c - p2))).
  { intros h i j a b c Hi Ha (S1 & S2 & S3 & S4 & S5 & S6). destruct (XF h i j Hi) as [XR XE]. rewrite XE in S1, S2. split.
    - apply (step_flat n0 n1 n2 k0 k1 k2 f kv iterations false Pn Pk Hnn shape ks Hs Hk HL); auto. split; [exact Ha|]. exists a, b, c. auto 10.
    - split; [exact S1|]. rewrite <- HIT by auto. exact S2. }
  assert (DS : forall p q, donor false shape ks kv iterations n (dat (crop P F)) p q ->
     0 <= p < n0 * n1 * n2 /\ src p0 q0 p1 q1 p2 q2 K (it_of iterations) F n (p / (n1 * n2) + p0) (p / n2 mod n1 + p1) (p mod n2 + p2)
       (q / (n1 * n2) + p0) (q / n2 mod n1 + p1) (q mod n2 + p2)).
  { intros p q (D1 & D2 & D3). assert (Hp : 0 <= p < n0 * n1 * n2).
    { destruct D1 as (D1 & _). unfold pixel in D1. rewrite (shape3_prod _ _ _ _ Hs) in D1. exact D1. }
    split; [exact Hp|]. assert (S3 : st3 n0 n1 n2 p0 q0 p1 q1 p2 q2 K false (p / (n1 * n2) + p0) (p / n2 mod n1 + p1) (p mod n2 + p2)
      (q / (n1 * n2) + p0) (q / n2 mod n1 + p1) (q mod n2 + p2)) by exact (flat_step n0 n1 n2 k0 k1 k2 f kv iterations false Pn Pk Hnn shape ks Hs Hk HL p q D1).
    destruct S3 as (_ & a & b & c & A0 & A1 & A2 & EK & -> & -> & ->). unfold src. rewrite <- CR by auto.
    split; [exact D2|]. split; [rewrite HIT by auto; exact D3|]. auto 10. }
  split; [transitivity (n0 * n1 * n2); [exact (crop_len n0 n1 n2 k0 k1 k2 Pn F' SG)|symmetry; exact (crop_len n0 n1 n2 k0 k1 k2 Pn F HS)]|].
  intros q Hq. unfold pixel in Hq. rewrite (shape3_prod _ _ _ _ Hs) in Hq.
  rewrite (CR F' q SG Hq), (CR F q HS Hq).
  destruct (flat3_encode n0 n1 n2 q) as (X0 & X1 & X2 & X3); try lia.
  assert (Hi : inner n0 n1 n2 p0 p1 p2 (q / (n1 * n2) + p0) (q / n2 mod n1 + p1) (q mod n2 + p2)) by (unfold inner; lia).
  assert (Eq : flat3 n1 n2 (q / (n1 * n2) + p0 - p0) (q / n2 mod n1 + p1 - p1) (q mod n2 + p2 - p2) = q) by (rewrite !Z.add_simpl_r; exact X0).
  destruct (LW _ _ _ (inner_cell n0 n1 n2 p0 q0 p1 q1 p2 q2 Hpq _ _ _ Hi)) as [LA LZ].
  split; [exact LA|]. split.
  - intros Hz ND. destruct (LZ Hz) as [(Z1 & _)|(h & i & j & I & S & _)]; [exact Z1|]. exfalso.
    apply (points_In n0 n1 n2) in I; [|exact HS]. apply (ND (flat3 n1 n2 (h - p0) (i - p1) (j - p2))). rewrite <- Eq. apply SD; auto.
  - intros p Hz D M. destruct (DS p q D) as [Hp Sp]. destruct (flat3_encode n0 n1 n2 p) as (Y0 & Y1 & Y2 & Y3); try lia.
    assert (Hj : inner n0 n1 n2 p0 p1 p2 (p / (n1 * n2) + p0) (p / n2 mod n1 + p1) (p mod n2 + p2)) by (unfold inner; lia).
    destruct (LZ Hz) as [(_ & Z2)|(h & i & j & I & S & Ev & ML)].
    + exfalso. eapply Z2; [|exact Sp]. apply (points_In n0 n1 n2); auto.
    + apply (points_In n0 n1 n2) in I; [|exact HS]. rewrite Ev. destruct (XF h i j I) as [XR ->]. f_equal.
      pose proof (SD _ _ _ _ _ _ I Hi S) as D'. rewrite Eq in D'. specialize (M _ D').
      destruct (ML _ _ _ (proj2 (points_In n0 n1 n2 p0 q0 p1 q1 p2 q2 F _ _ _ HS) Hj) Sp) as [EE|B].
      * injection EE as <- <- <-. rewrite !Z.add_simpl_r. exact Y0.
      * destruct I as (I0 & I1 & I2).
        assert (flat3 n1 n2 (p / (n1 * n2)) (p / n2 mod n1) (p mod n2) < flat3 n1 n2 (h - p0) (i - p1) (j - p2)).
        { apply (before_flat n0); [lia|lia|]. cbn in B |- *. lia. }
        lia.
Qed.

Lemma grows_run : forall F0, Inv 0 F0 -> forall m, exists F, foldM (dil_iter false iterations K P) (zrange 0 (Z.of_nat m)) F0 = Ok F /\
  Inv (Z.of_nat m) F /\ grows false shape ks kv iterations (Z.of_nat m) (dat (crop P F0)) (dat (crop P F)).
Proof.
  intros F0 H0 m. unfold zrange. rewrite Z.sub_0_r, Nat2Z.id. induction m as [|m (F & E & HI & G)].
  - exists F0. split; [reflexivity|]. split; [exact H0|]. constructor.
  - destruct (grown_crop (Z.of_nat m) F ltac:(lia) HI) as (F' & E' & HI' & G'). exists F'.
    rewrite zseq_S, foldM_app, E, bind_Ok. cbn [foldM]. rewrite Z.add_0_l, E', bind_Ok. split; [reflexivity|].
    replace (Z.of_nat (S m)) with (Z.of_nat m + 1) by lia. split; [exact HI'|]. eapply grows_more; eauto. lia.
Qed.

End Flat.

Lemma rule_ok : forall asrt shape f ks kv iterations, dilatable false shape f ks kv iterations ->
  exists ret n, dilate asrt shape f ks kv iterations false = Ok ret /\ In n iterations /\ (forall m, In m iterations -> m <= n) /\
    grows false shape ks kv iterations n f ret.
Proof.
  intros asrt shape f ks kv iterations HD. destruct (dilate_ok asrt shape f ks kv iterations false HD) as (ret & n & E & En & _).
  exists ret, n. split; [exact E|].
  destruct HD as (Hrank & (Hpos & Lf) & HL & (Kpos & Lk) & Hk01 & Hfit & Hit & Hnn & Hlab).
  destruct (amax_ok iterations Hit) as (n' & En' & Hin & Hmax). rewrite En in En'. injection En' as <-.
  split; [exact Hin|]. split; [exact Hmax|]. pose proof (Hnn _ Hin) as Hn.
  unfold dilate in E. do 4 (apply bind_ok in E; destruct E as (? & _ & E)).
  unfold atleast_3d in E. apply bind_ok in E. destruct E as (K & EK & E). apply bind_ok in EK.
  destruct EK as ([[k0 k1] k2] & Hk & EK). injection EK as <-.
  apply bind_ok in E. destruct E as (f3 & Ef & E). apply bind_ok in Ef. destruct Ef as ([[n0 n1] n2] & Hs & Ef). injection Ef as <-.
  cbn [d0 d1 d2] in E. match goal with X : (if ?c then _ else _) = _ |- _ => destruct c; [discriminate|] end.
  pose proof (shape3_pos _ _ _ _ Hs Hpos) as Pn. pose proof (shape3_kernel _ _ _ _ Hk Kpos) as Pk.
  rewrite (shape3_prod _ _ _ _ Hs) in Lf. rewrite (shape3_prod _ _ _ _ Hk) in Lk.
  rewrite (pad_P k0 k1 k2 Pk) in E. rewrite bind_Ok in E. rewrite En, bind_Ok in E.
  apply bind_ok in E. destruct E as (F & EF & E). injection E as <-.
  assert (HIT : forall l, In l f -> l <> 0 -> it_of iterations l = zn iterations l).
  { intros l Hl H0. unfold it_of. destruct (lenZ iterations =? 1) eqn:E1; auto. specialize (Hlab l Hl). lia. }
  assert (HV : valid f iterations).
  { intros l Hl H0. specialize (Hlab l Hl) as HR. unfold iter_of, it_of. destruct (lenZ iterations =? 1) eqn:E1; [lia|].
    rewrite vget_ok by auto. split; auto. apply Hnn. apply zn_In. auto. }
  set (F0 := pad_constant 0 _ _) in *.
  assert (E0 : padded n0 n1 n2 k0 k1 k2 f false = Ok F0) by reflexivity.
  destruct (padded_ok n0 n1 n2 k0 k1 k2 f kv iterations false Pn Pk Hnn ltac:(discriminate)) as (F1 & E1 & S1 & V1).
  rewrite E0 in E1. injection E1 as <-.
  pose proof (Inv0 n0 n1 n2 k0 k1 k2 f kv iterations false Pn Pk Lf Hnn HV ltac:(discriminate) F0 S1 V1) as I0.
  destruct (grows_run n0 n1 n2 k0 k1 k2 f kv iterations shape ks Pn Pk Lf Hnn Hs Hk HL HV HIT F0 I0 (Z.to_nat n)) as (F2 & E2 & _ & G).
  rewrite Z2Nat.id in E2, G by exact Hn. rewrite EF in E2. injection E2 as <-.
  destruct (padded_crop n0 n1 n2 k0 k1 k2 f kv iterations false Pn Pk Hnn F0 E0) as [_ C0].
  replace f with (dat (crop (PP ((k0 - 1) / 2) (k0 / 2) ((k1 - 1) / 2) (k1 / 2) ((k2 - 1) / 2) (k2 / 2)) F0)) at 1; [exact G|].
  pose proof (crop_len n0 n1 n2 k0 k1 k2 Pn F0 S1) as CL.
  apply list_zn; [congruence|]. intros p Hp. apply C0. rewrite <- CL. exact Hp.
Qed.

(** ** The rule determines the result *)

Lemma last_below : forall (D : Z -> Prop) n, 0 <= n -> (forall p, 0 <= p < n -> D p \/ ~ D p) ->
  (forall p, 0 <= p < n -> ~ D p) \/ exists p, 0 <= p < n /\ D p /\ forall p', 0 <= p' < n -> D p' -> p' <= p.
Proof.
  intros D n Hn. pattern n. apply natlike_ind; [| |exact Hn].
  - intros _. left. intros p Hp. lia.
  - intros m Hm IH H. destruct (H m ltac:(lia)) as [Y|N].
    + right. exists m. split; [lia|]. split; [exact Y|]. intros p' Hp' _. lia.
    + destruct IH as [A|(p & Hp & Y & M)].
      * intros p Hp. apply H. lia.
      * left. intros p Hp. destruct (Z.eq_dec p m) as [->|]; [exact N|]. apply A. lia.
      * right. exists p. split; [lia|]. split; [exact Y|]. intros p' Hp' D'. destruct (Z.eq_dec p' m) as [->|]; [contradiction|]. apply M; [lia|exact D'].
Qed.

Lemma exists_dec : forall (D : Z -> Prop) n, 0 <= n -> (forall p, 0 <= p < n -> D p \/ ~ D p) ->
  (exists p, 0 <= p < n /\ D p) \/ ~ (exists p, 0 <= p < n /\ D p).
Proof.
  intros D n Hn H. destruct (last_below D n Hn H) as [A|(p & Hp & Y & _)]; [right; intros (p & Hp & Y); exact (A p Hp Y)|left; exists p; auto].
Qed.

Lemma rel_dec : forall per n x t y, rel per n x t y \/ ~ rel per n x t y.
Proof. intros [] n x t y; unfold rel; lia. Qed.

Lemma and_dec : forall A B : Prop, A \/ ~ A -> B \/ ~ B -> A /\ B \/ ~ (A /\ B).
Proof. tauto. Qed.

Lemma kernel_step_dec : forall per shape f ks kv iterations p q, dilatable per shape f ks kv iterations ->
  kernel_step per shape ks kv p q \/ ~ kernel_step per shape ks kv p q.
Proof.
  intros per shape f ks kv iterations p q (Hrank & (Hpos & Lf) & HL & (Kpos & Lk) & _).
  destruct (shape3_len shape Hrank) as (n0 & n1 & n2 & Hs). destruct (shape3_len ks ltac:(lia)) as (k0 & k1 & k2 & Hk).
  pose proof (shape3_pos _ _ _ _ Hs Hpos) as Pn. pose proof (shape3_kernel _ _ _ _ Hk Kpos) as Pk.
  rewrite (kernel_step3 per shape ks kv n0 n1 n2 k0 k1 k2 p q HL Hs Hk Pn ltac:(lia)).
  apply and_dec; [lia|]. apply and_dec; [lia|].
  apply exists_dec; [nia|]. intros r _. apply and_dec; [lia|]. repeat apply and_dec; apply rel_dec.
Qed.

Lemma grown_unique : forall per shape f ks kv iterations k g a b, dilatable per shape f ks kv iterations -> lenZ g = lenZ f ->
  grown per shape ks kv iterations k g a -> grown per shape ks kv iterations k g b -> a = b.
Proof.
  intros per shape f ks kv iterations k g a b HD Lg [La HA] [Lb HB]. pose proof HD as (_ & (Hpos & Lf) & _).
  apply list_zn; [congruence|]. intros q Hq. assert (Hp : pixel shape q) by (unfold pixel; lia).
  destruct (HA q Hp) as (A1 & A2 & A3). destruct (HB q Hp) as (B1 & B2 & B3).
  destruct (Z.eq_dec (zn g q) 0) as [E|N]; [|rewrite A1, B1; auto].
  destruct (last_below (fun p => donor per shape ks kv iterations k g p q) (zprod shape)) as [ND|(p & Rp & D & M)].
  - lia.
  - intros p _. unfold donor. apply and_dec; [exact (kernel_step_dec _ _ _ _ _ _ p q HD)|]. apply and_dec; lia.
  - assert (ND' : forall p, ~ donor per shape ks kv iterations k g p q).
    { intros p D. pose proof D as ((X & _) & _). exact (ND p X D). }
    rewrite A2, B2; auto.
  - assert (M' : forall p', donor per shape ks kv iterations k g p' q -> p' <= p).
    { intros p' D'. pose proof D' as ((X & _) & _). exact (M p' X D'). }
    rewrite (A3 p), (B3 p); auto.
Qed.

Lemma grows_len : forall per shape ks kv iterations n g a, grows per shape ks kv iterations n g a -> lenZ a = lenZ g /\ 0 <= n.
Proof. intros per shape ks kv iterations n g a H. induction H as [|n g g' g'' Hn H [IH _] [L _]]; [split; [reflexivity|lia]|]. split; [congruence|lia]. Qed.

Lemma grows_unique : forall per shape f ks kv iterations n a b, dilatable per shape f ks kv iterations ->
  grows per shape ks kv iterations n f a -> grows per shape ks kv iterations n f b -> a = b.
Proof.
  intros per shape f ks kv iterations n a b HD HA. revert b. remember f as g eqn:Eg in HA |- *.
  induction HA as [g|n g g' g'' Hn HA IH HG]; intros b HB; subst g.
  - inversion HB as [|m x y z Hm HB' HG' E1]; subst; [reflexivity|lia].
  - inversion HB as [x Ex|m x y z Hm HB' HG' E1]; subst; [lia|]. assert (m = n) by lia. subst m.
    specialize (IH eq_refl y HB'). subst y. destruct (grows_len _ _ _ _ _ _ _ _ HA) as [L _].
    exact (grown_unique _ _ _ _ _ _ _ _ _ _ HD L HG HG').
Qed.
