(** * DilateHaloMore: more iterations on a periodic image *)

From Coq Require Import ZArith List Bool Lia.
From Verif Require Import Base BaseLemmas Array3 Array3Lemmas Dilate SpecDilate DilateTop SpecDilateHalo DilateHalo DilateHaloOne.
Import ListNotations.
Open Scope Z_scope.

Section More.
Variables (n k : place) (kv : list Z).

Lemma from_above_ext : forall a v v', (forall q, v q = v' q) -> forall q, from_above n k a v q = from_above n k a v' q.
Proof. intros a v v' H q. unfold from_above. rewrite !H. reflexivity. Qed.
Lemma from_below_ext : forall a v v', (forall q, v q = v' q) -> forall q, from_below n k a v q = from_below n k a v' q.
Proof. intros a v v' H q. unfold from_below. rewrite !H. reflexivity. Qed.
Lemma fold_back_ext : forall v v', (forall q, v q = v' q) -> forall q, fold_back n k v q = fold_back n k v' q.
Proof. intros v v' H. unfold fold_back. do 3 (apply from_below_ext). do 3 (apply from_above_ext). exact H. Qed.

Lemma filter_eq : forall A (P Q : A -> bool) l, (forall x, P x = Q x) -> filter P l = filter Q l.
Proof. intros A P Q l H. induction l as [|x l IH]; [reflexivity|]. cbn. rewrite H, IH. reflexivity. Qed.

Lemma from_above_in : forall (L : Z -> Prop) a v, (forall q, L (v q)) -> forall q, L (from_above n k a v q).
Proof. intros L a v H q. unfold from_above, prefer. destruct (_ && _); [destruct (_ =? 0)|]; apply H. Qed.
Lemma from_below_in : forall (L : Z -> Prop) a v, (forall q, L (v q)) -> forall q, L (from_below n k a v q).
Proof. intros L a v H q. unfold from_below, prefer. destruct (_ && _); [destruct (_ =? 0)|]; apply H. Qed.

Lemma last_In : forall l : list Z, last l 0 = 0 \/ In (last l 0) l.
Proof.
  intros l. destruct l as [|x l] using rev_ind; [left; reflexivity|]. right. rewrite last_snoc. apply in_or_app. right. left. reflexivity.
Qed.

Lemma passes_in : forall iterations f i v, (forall q, v q = 0 \/ In (v q) f) -> forall q, let x := passes n k kv iterations i v q in x = 0 \/ In x f.
Proof.
  intros iterations f i v H. induction i as [|i IH]; [exact H|]. cbn [passes]. unfold fold_back.
  do 3 (apply (from_below_in (fun x => x = 0 \/ In x f))). do 3 (apply (from_above_in (fun x => x = 0 \/ In x f))).
  intros q. unfold spread. destruct (_ =? 0); [|apply IH]. destruct (last_In (map (passes n k kv iterations i v)
    (filter (fun p => gives k kv iterations (Z.of_nat i) (passes n k kv iterations i v) p q) (pixels n)))) as [E|I]; [left; exact E|].
  apply in_map_iff in I. destruct I as (p & <- & _). apply IH.
Qed.

Lemma passes_agree : forall A B f v m, (forall q, v q = 0 \/ In (v q) f) ->
  (forall l i, In l f -> l <> 0 -> i < Z.of_nat m -> (i <? zn A l) = (i <? zn B l)) ->
  forall i, (i <= m)%nat -> forall q, passes n k kv A i v q = passes n k kv B i v q.
Proof.
  intros A B f v m HL HA i. induction i as [|i IH]; intros Hi; [reflexivity|]. specialize (IH ltac:(lia)). cbn [passes].
  apply fold_back_ext. intros q. unfold spread. rewrite IH. destruct (_ =? 0); [|reflexivity]. f_equal.
  rewrite (map_ext _ _ IH). f_equal. apply filter_eq. intros p. unfold gives. rewrite IH.
  destruct (passes n k kv B i v p =? 0) eqn:E; [reflexivity|]. rewrite (HA (passes n k kv B i v p) (Z.of_nat i)); [reflexivity| |lia|lia].
  destruct (passes_in B f i v HL p) as [X|X]; [lia|exact X].
Qed.

Lemma fold_back_away : forall v q, away n k q -> fold_back n k v q = v q.
Proof.
  intros v q H.
  assert (U : forall a w, from_above n k a w q = w q).
  { intros a w. unfold from_above. replace (_ && _) with false; [reflexivity|]. symmetry. rewrite andb_false_iff. specialize (H a). lia. }
  assert (D : forall a w, from_below n k a w q = w q).
  { intros a w. unfold from_below. replace (_ && _) with false; [reflexivity|]. symmetry. rewrite andb_false_iff. specialize (H a). lia. }
  unfold fold_back. rewrite !D, !U. reflexivity.
Qed.

Lemma pass_away : forall iterations i v q, away n k q -> passes n k kv iterations i v q <> 0 ->
  passes n k kv iterations (S i) v q = passes n k kv iterations i v q.
Proof.
  intros iterations i v q H N. cbn [passes]. rewrite fold_back_away by exact H. unfold spread.
  destruct (_ =? 0) eqn:E; [lia|reflexivity].
Qed.
End More.

Lemma tiled_in : forall shape f, (length shape <= 3)%nat -> image shape f -> forall q, tiled (triple shape) f q = 0 \/ In (tiled (triple shape) f q) f.
Proof.
  intros shape f Hrank (Hpos & Lf) q. right. destruct (shape3_len shape Hrank) as (n0 & n1 & n2 & Hs).
  pose proof (shape3_pos _ _ _ _ Hs Hpos) as (P0 & P1 & P2). rewrite (shape3_prod _ _ _ _ Hs) in Lf. rewrite (shape3_triple _ _ _ _ Hs).
  unfold tiled. apply zn_In. rewrite Lf. cbn [along].
  exact (flat3_range n0 n1 n2 _ _ _ (Z.mod_pos_bound _ n0 ltac:(lia)) (Z.mod_pos_bound _ n1 ltac:(lia)) (Z.mod_pos_bound _ n2 ltac:(lia))).
Qed.

Lemma halo_n : forall asrt shape f ks kv n, dilatable_n true shape f ks kv -> 0 <= n -> exists m, (forall l, In l f -> 0 <= l <= m) /\
  dilate_n asrt shape f ks kv n true =
    Ok (map (passes (triple shape) (triple ks) kv (repeat n (Z.to_nat (m + 1))) (Z.to_nat n) (tiled (triple shape) f)) (pixels (triple shape))) /\
  amax f = Ok m.
Proof.
  intros asrt shape f ks kv n H Hn. destruct (dilatable_n_list true shape f ks kv n H Hn) as (m & Em & Hm & Eu & HD & Hlab & Ea).
  exists m. split; [exact Hlab|]. split; [|exact Em]. destruct (halo_ok asrt _ _ _ _ _ HD) as (j & Hj & _ & E).
  apply repeat_spec in Hj. unfold dilate_n. rewrite Em, bind_Ok, Eu, E. replace (Z.to_nat n) with j by lia. reflexivity.
Qed.

Lemma more_away : forall asrt shape f ks kv n, dilatable_n true shape f ks kv -> 0 <= n ->
  exists r r', dilate_n asrt shape f ks kv n true = Ok (map r (pixels (triple shape))) /\
    dilate_n asrt shape f ks kv (n + 1) true = Ok (map r' (pixels (triple shape))) /\
    forall q, away (triple shape) (triple ks) q -> r q <> 0 -> r' q = r q.
Proof.
  intros asrt shape f ks kv n H Hn. destruct (halo_n asrt shape f ks kv n H Hn) as (m & HL & E & Em).
  destruct (halo_n asrt shape f ks kv (n + 1) H ltac:(lia)) as (m' & _ & E' & Em'). rewrite Em in Em'. injection Em' as <-.
  eexists. eexists. split; [exact E|]. split; [exact E'|]. intros q Q N.
  destruct H as (Hrank & Himg & _).
  assert (AG : forall x, passes (triple shape) (triple ks) kv (repeat n (Z.to_nat (m + 1))) (Z.to_nat n) (tiled (triple shape) f) x =
    passes (triple shape) (triple ks) kv (repeat (n + 1) (Z.to_nat (m + 1))) (Z.to_nat n) (tiled (triple shape) f) x).
  { apply (passes_agree _ _ _ _ _ f _ (Z.to_nat n) (tiled_in shape f Hrank Himg)); [|lia].
    intros l i I _ Hi. specialize (HL l I). rewrite !zn_repeat by lia. apply eq_true_iff_eq. rewrite !Z.ltb_lt. lia. }
  rewrite AG in *. replace (Z.to_nat (n + 1)) with (S (Z.to_nat n)) by lia. apply pass_away; assumption.
Qed.
