(** * LabelsTrack: labels of the periodic clusters, renamed after those of the image cut open *)

From Coq Require Import ZArith List Bool Lia Sorted.
From Verif Require Import Base BaseLemmas SpecCluster Cluster ClusterTop DerivedCluster Labels SpecLabels LabelsTop.
Import ListNotations.
Open Scope Z_scope.

Lemma sorted_NoDup : forall l : list Z, StronglySorted Z.lt l -> NoDup l.
Proof.
  induction l as [|x l IH]; intros H; [constructor|]. inversion H as [|? ? S F]; subst. constructor; [|auto].
  intros I. rewrite Forall_forall in F. specialize (F x I). lia.
Qed.

Lemma NoDup_snd : forall rows : list (Z * Z), NoDup (map fst rows) ->
  (forall k k' v, In (k, v) rows -> In (k', v) rows -> k = k') -> NoDup (map snd rows).
Proof.
  induction rows as [|[k v] rows IH]; intros N H; [constructor|]. cbn [map fst snd] in *. inversion N as [|? ? N1 N2]; subst. constructor.
  - intros I. apply in_map_iff in I. destruct I as ([k' v'] & E & I). cbn [snd] in E. subst v'.
    assert (k = k') by (apply (H k k' v); [left; reflexivity|right; exact I]). subst k'. apply N1. apply in_map_iff. exists (k, v). auto.
  - apply IH; [exact N2|]. intros a b w I J. apply (H a b w); right; assumption.
Qed.

(** The first pixel with a value. *)
Lemma first_exists : forall a p, 0 <= p < lenZ a -> exists i, first_at a (zn a p) i /\ i <= p.
Proof.
  intros a p Hp. assert (K : forall n, (n <= Z.to_nat p)%nat -> (forall j, 0 <= j < Z.of_nat n -> zn a j <> zn a p) \/ exists i, first_at a (zn a p) i /\ i <= p).
  { induction n as [|n IH]; intros Hn; [left; intros; lia|]. destruct IH as [IH|IH]; [lia| |right; exact IH].
    destruct (Z.eq_dec (zn a (Z.of_nat n)) (zn a p)) as [E|E].
    - right. exists (Z.of_nat n). split; [|lia]. split; [lia|]. split; [exact E|]. exact IH.
    - left. intros j Hj. destruct (Z.eq_dec j (Z.of_nat n)) as [-> |]; [exact E|apply IH; lia]. }
  destruct (K (Z.to_nat p) ltac:(lia)) as [H|H]; [|exact H].
  exists p. split; [|lia]. split; [lia|]. split; [reflexivity|]. intros j Hj. apply H. lia.
Qed.

Lemma first_at_fun : forall a k i j, first_at a k i -> first_at a k j -> i = j.
Proof.
  intros a k i j (I1 & I2 & I3) (J1 & J2 & J3). destruct (Z.lt_trichotomy i j) as [H|[H|H]]; [|exact H|].
  - exfalso. apply (J3 i); [lia|exact I2].
  - exfalso. apply (I3 j); [lia|exact J2].
Qed.

Section Track.
  Variables (shape a b : list Z).
  Hypothesis La : lenZ a = zprod shape.
  Hypothesis Lb : lenZ b = zprod shape.
  (* every label of [b] lies in one of [a] *)
  Hypothesis Fine : forall p q, pixel shape p -> pixel shape q -> zn b p = zn b q -> zn a p = zn a q.
  Hypothesis Zero : forall p, pixel shape p -> (zn b p = 0 <-> zn a p = 0).
  (* [a] and [b] are numbered in the order in which clusters appear *)
  Hypothesis Na : forall p q f h, pixel shape p -> pixel shape q -> zn a p <> 0 -> zn a q <> 0 ->
    first_of shape a f p -> first_of shape a h q -> (zn a p < zn a q <-> f < h).
  Hypothesis Nb : forall p q f h, pixel shape p -> pixel shape q -> zn b p <> 0 -> zn b q <> 0 ->
    first_of shape b f p -> first_of shape b h q -> (zn b p < zn b q <-> f < h).
  Hypothesis Pa : forall p, pixel shape p -> 0 <= zn a p.
  Hypothesis Pb : forall p, pixel shape p -> 0 <= zn b p.

  Lemma first_at_of : forall l k p i, lenZ l = zprod shape -> zn l p = k -> first_at l k i -> first_of shape l i p.
  Proof.
    intros l k p i HL E (I1 & I2 & I3). split; [unfold pixel; lia|]. split; [unfold zn in *; congruence|].
    intros q Hq Eq. destruct (Z_lt_le_dec q i) as [H|H]; [|exact H]. exfalso. apply (I3 q); [unfold pixel in Hq; lia|].
    change (zn l q = zn l p) in Eq. congruence.
  Qed.

  (* the first pixel of a cluster of [a] is the first of its piece in [b] *)
  Lemma first_piece : forall p i, pixel shape p -> first_at a (zn a p) i -> first_at b (zn b i) i.
  Proof.
    intros p i Hp (I1 & I2 & I3). split; [lia|]. split; [reflexivity|]. intros j Hj E. apply (I3 j Hj).
    rewrite <- I2. apply Fine; unfold pixel; try lia; exact E.
  Qed.

  Lemma smallest_piece : forall p i q, pixel shape p -> first_at a (zn a p) i -> pixel shape q -> zn a q = zn a p -> zn b i <= zn b q.
  Proof.
    intros p i q Hp HI Hq E. destruct (Z.eq_dec (zn b q) 0) as [Q0|Q0].
    { assert (zn a p = 0) by (rewrite <- E; apply Zero; assumption). destruct HI as (I1 & I2 & I3).
      assert (zn b i = 0) by (apply Zero; [unfold pixel; lia|congruence]). lia. }
    assert (Hi : pixel shape i) by (destruct HI; unfold pixel; lia).
    assert (I0 : zn b i <> 0).
    { intros X. apply Zero in X; [|exact Hi]. apply Q0. apply Zero; [exact Hq|]. destruct HI as (_ & I2 & _). congruence. }
    destruct (first_exists b q ltac:(unfold pixel in Hq; lia)) as (h & Hh & _).
    pose proof (first_piece p i Hp HI) as Hi'. destruct (Z.le_gt_cases (zn b i) (zn b q)) as [L|L]; [exact L|].
    assert (h < i).
    { apply (Nb q i h i Hq Hi Q0 I0); [eapply first_at_of; eauto|eapply first_at_of; eauto|lia]. }
    destruct HI as (I1 & I2 & I3). exfalso. apply (I3 h); [destruct Hh; lia|].
    rewrite <- E. apply Fine; [destruct Hh; unfold pixel; lia|exact Hq|]. destruct Hh as (_ & Hh & _). exact Hh.
  Qed.

  Lemma piece_order : forall p q i j, pixel shape p -> pixel shape q -> first_at a (zn a p) i -> first_at a (zn a q) j ->
    (zn a p < zn a q <-> zn b i < zn b j).
  Proof.
    intros p q i j Hp Hq HI HJ.
    assert (Hi : pixel shape i) by (destruct HI; unfold pixel; lia). assert (Hj : pixel shape j) by (destruct HJ; unfold pixel; lia).
    assert (Ei : zn a i = zn a p) by (destruct HI as (_ & X & _); exact X). assert (Ej : zn a j = zn a q) by (destruct HJ as (_ & X & _); exact X).
    destruct (Z.eq_dec (zn a p) 0) as [P0|P0].
    { assert (zn b i = 0) by (apply Zero; [exact Hi|congruence]). pose proof (Pa q Hq). pose proof (Pb j Hj).
      destruct (Z.eq_dec (zn a q) 0) as [Q0|Q0]; [assert (zn b j = 0) by (apply Zero; [exact Hj|congruence]); lia|].
      assert (zn b j <> 0) by (intros X; apply Zero in X; [congruence|exact Hj]). lia. }
    assert (I0 : zn b i <> 0) by (intros X; apply Zero in X; [congruence|exact Hi]).
    destruct (Z.eq_dec (zn a q) 0) as [Q0|Q0].
    { assert (zn b j = 0) by (apply Zero; [exact Hj|congruence]). pose proof (Pa p Hp). pose proof (Pb i Hi). lia. }
    assert (J0 : zn b j <> 0) by (intros X; apply Zero in X; [congruence|exact Hj]).
    rewrite (Na p q i j) by (auto; eapply first_at_of; eauto).
    rewrite (Nb i j i j); [reflexivity|auto|auto|auto|auto| |].
    - eapply first_at_of; [exact Lb|reflexivity|eapply first_piece; [exact Hp|exact HI]].
    - eapply first_at_of; [exact Lb|reflexivity|eapply first_piece; [exact Hq|exact HJ]].
  Qed.

  Lemma track : forall asrt, exists rows ret,
    labels_map a b = Ok rows /\ labels_rename asrt a (lenZ rows) 2 (table rows) = Ok ret /\
    NoDup (map fst rows) /\ (forall k, In k (map fst rows) <-> In k a) /\ NoDup (map snd rows) /\
    lenZ ret = zprod shape /\
    (forall p q, pixel shape p -> pixel shape q -> (zn a p < zn a q <-> zn ret p < zn ret q)) /\
    (forall p, pixel shape p -> (exists q, pixel shape q /\ zn a q = zn a p /\ zn ret p = zn b q) /\
       forall q, pixel shape q -> zn a q = zn a p -> zn ret p <= zn b q).
  Proof.
    intros asrt. destruct (map_spec a b ltac:(lia)) as (rows & E & S & M).
    assert (K : forall k, In k (map fst rows) <-> In k a).
    { intros k. rewrite in_map_iff. split.
      - intros ([k' v] & <- & I). apply M in I. destruct I as (i & (I1 & I2 & _) & _). cbn [fst]. rewrite <- I2. apply zn_In. exact I1.
      - intros I. apply In_zn in I. destruct I as (p & Hp & <-). destruct (first_exists a p Hp) as (i & Hi & _).
        exists (zn a p, zn b i). split; [reflexivity|]. apply M. exists i. auto. }
    destruct (rename_spec asrt a rows) as (ret & ER & LR & R).
    { intros l I. apply In_zn in I. destruct I as (p & Hp & <-). destruct (first_exists a p Hp) as (i & Hi & _). exists (zn b i). apply M. exists i. auto. }
    assert (V : forall p, pixel shape p -> exists i, first_at a (zn a p) i /\ zn ret p = zn b i).
    { intros p Hp. unfold pixel in Hp. destruct (R p ltac:(lia)) as (before & after & X & _).
      assert (I : In (zn a p, zn ret p) rows) by (rewrite X; apply in_or_app; right; left; reflexivity).
      apply M in I. destruct I as (i & Hi & <-). eauto. }
    pose proof (sorted_NoDup _ S) as ND.
    exists rows, ret. split; [exact E|]. split; [exact ER|]. split; [exact ND|]. split; [exact K|]. split; [|split; [lia|split]].
    - apply NoDup_snd; [exact ND|]. intros k k' v I J. apply M in I. apply M in J. destruct I as (i & Hi & Vi), J as (j & Hj & Vj).
      assert (Pi : pixel shape i) by (destruct Hi; unfold pixel; lia). assert (Pj : pixel shape j) by (destruct Hj; unfold pixel; lia).
      destruct Hi as (_ & <- & _), Hj as (_ & <- & _). apply Fine; [exact Pi|exact Pj|congruence].
    - intros p q Hp Hq. destruct (V p Hp) as (i & Hi & ->), (V q Hq) as (j & Hj & ->). apply piece_order; assumption.
    - intros p Hp. destruct (V p Hp) as (i & Hi & ->). split.
      + exists i. destruct Hi as (I1 & I2 & _). split; [unfold pixel; lia|]. auto.
      + intros q Hq Eq. exact (smallest_piece p i q Hp Hi Hq Eq).
  Qed.
End Track.

Lemma clusters_track : forall asrt shape img, good_shape shape -> (length shape <= 3)%nat -> lenZ img = zprod shape ->
  exists cut labels rows ret,
    clusters asrt shape img false = Ok cut /\ clusters asrt shape img true = Ok labels /\
    labels_map labels cut = Ok rows /\ labels_rename asrt labels (lenZ rows) 2 (table rows) = Ok ret /\
    NoDup (map fst rows) /\ (forall k, In k (map fst rows) <-> In k labels) /\ NoDup (map snd rows) /\
    lenZ ret = zprod shape /\
    (forall p, pixel shape p -> (zn ret p = 0 <-> zn img p = 0)) /\
    (forall p q, pixel shape p -> pixel shape q -> (zn labels p < zn labels q <-> zn ret p < zn ret q)) /\
    (forall p, pixel shape p -> (exists q, pixel shape q /\ zn labels q = zn labels p /\ zn ret p = zn cut q) /\
       forall q, pixel shape q -> zn labels q = zn labels p -> zn ret p <= zn cut q).
Proof.
  intros asrt shape img GS HR HL.
  destruct (clusters_ok asrt shape img false GS HR HL) as (b & Eb & Lb & Zb & Cb & _ & Pb & Nb).
  destruct (clusters_ok asrt shape img true GS HR HL) as (a & Ea & La & Za & Ca & _ & Pa & Na).
  destruct (clusters_grow asrt shape img img false true GS HR HL HL ltac:(auto) ltac:(auto)) as (b' & a' & Eb' & Ea' & G).
  assert (b' = b) by congruence. assert (a' = a) by congruence. subst b' a'.
  assert (Zero : forall p, pixel shape p -> (zn b p = 0 <-> zn a p = 0)) by (intros p Hp; rewrite Zb, Za by exact Hp; reflexivity).
  assert (Fine : forall p q, pixel shape p -> pixel shape q -> zn b p = zn b q -> zn a p = zn a q).
  { intros p q Hp Hq E. destruct (Z.eq_dec (zn b p) 0) as [X|X]; [|apply (G p q Hp Hq X E)].
    assert (zn a p = 0) by (apply Zero; assumption). assert (zn a q = 0) by (apply Zero; [assumption|congruence]). congruence. }
  destruct (track shape a b La Lb Fine Zero Na Nb Pa Pb asrt) as (rows & ret & M & R & T1 & T2 & T3 & T4 & T5 & T6).
  exists b, a, rows, ret. do 8 (split; [assumption|]). split; [|split; assumption].
  intros p Hp. destruct (T6 p Hp) as [(q & Hq & Eq & ->) _]. rewrite (Zero q Hq), Eq. apply Za. exact Hp.
Qed.

Lemma clusters_merge : forall asrt shape img, good_shape shape -> (length shape <= 3)%nat -> lenZ img = zprod shape ->
  exists cut labels rows,
    clusters asrt shape img false = Ok cut /\ clusters asrt shape img true = Ok labels /\
    labels_map cut labels = Ok rows /\ labels_rename asrt cut (lenZ rows) 2 (table rows) = Ok labels.
Proof.
  intros asrt shape img GS HR HL.
  destruct (clusters_ok asrt shape img false GS HR HL) as (b & Eb & Lb & Zb & _).
  destruct (clusters_ok asrt shape img true GS HR HL) as (a & Ea & La & Za & _).
  destruct (clusters_grow asrt shape img img false true GS HR HL HL ltac:(auto) ltac:(auto)) as (b' & a' & Eb' & Ea' & G).
  assert (b' = b) by congruence. assert (a' = a) by congruence. subst b' a'.
  destruct (map_rename asrt b a) as (rows & M & R); [lia| |exists b, a, rows; auto].
  intros p q Hp Hq E. assert (Pp : pixel shape p) by (unfold pixel; lia). assert (Pq : pixel shape q) by (unfold pixel; lia).
  destruct (Z.eq_dec (zn b p) 0) as [X|X]; [|apply (G p q Pp Pq X E)].
  assert (zn a p = 0) by (apply Za; [exact Pp|apply Zb; assumption]). assert (zn a q = 0) by (apply Za; [exact Pq|apply Zb; [exact Pq|congruence]]). congruence.
Qed.
