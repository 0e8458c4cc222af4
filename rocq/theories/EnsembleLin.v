(** * EnsembleLin: adding to accumulators (proofs only)

    A step is linear when what it adds, and whether it fails, does not depend on what has been
    accumulated before. *)

From Coq Require Import ZArith QArith Qcanon List Bool Lia.
From Verif Require Import Base BaseLemmas SpecCluster Array3 Array3Lemmas Path Ensemble SpecEnsemble EnsembleSums.
Import ListNotations.
Open Scope Z_scope.

Section Lin.
Context {S I : Type} (vec : S -> I -> Qc) (ix : I -> Prop).

Definition lin (pre post : S -> Prop) (pt : S -> res S) (out : res (I -> Qc)) : Prop :=
  forall s, pre s ->
  match out with
  | Ok D => exists s', pt s = Ok s' /\ post s' /\ forall i, ix i -> vec s' i = (vec s i + D i)%Qc
  | Throw => pt s = Throw
  | UB => pt s = UB
  | NoFuel => pt s = NoFuel
  end.

Lemma lin_ret : forall pre : S -> Prop, lin pre pre (fun s => Ok s) (Ok (fun _ => 0%Qc)).
Proof. intros pre s Hs. exists s. split; auto. split; auto. intros. ring. Qed.

Lemma lin_ext : forall (pre post : S -> Prop) (pt pt' : S -> res S) out, (forall s, pre s -> pt s = pt' s) -> lin pre post pt' out -> lin pre post pt out.
Proof. intros pre post pt pt' out E H s Hs. specialize (H s Hs). rewrite E; auto. Qed.

Lemma lin_out : forall pre post pt D D', (forall i, ix i -> D i = D' i) -> lin pre post pt (Ok D) -> lin pre post pt (Ok D').
Proof.
  intros pre post pt D D' E H s Hs. destruct (H s Hs) as (s' & A & B & C). exists s'. split; auto. split; auto. intros i Hi. rewrite C, E; auto.
Qed.

Lemma lin_seq_ok : forall pre mid post f g D1 D2, lin pre mid f (Ok D1) -> lin mid post g (Ok D2) ->
  lin pre post (fun s => bind (f s) g) (Ok (fun i => D1 i + D2 i)%Qc).
Proof.
  intros pre mid post f g D1 D2 Hf Hg s Hs. destruct (Hf s Hs) as (s1 & E1 & O1 & V1). destruct (Hg s1 O1) as (s2 & E2 & O2 & V2).
  exists s2. rewrite E1. cbn [bind]. split; auto. split; auto. intros i Hi. rewrite V2, V1 by auto. ring.
Qed.

Lemma lin_seq : forall pre mid post f g o1, lin pre mid f o1 -> (exists o2, lin mid post g o2) -> exists o, lin pre post (fun s => bind (f s) g) o.
Proof.
  intros pre mid post f g o1 Hf [o2 Hg]. destruct o1 as [D1| | |].
  - destruct o2 as [D2| | |].
    + eexists. eapply lin_seq_ok; eauto.
    + exists Throw. intros s Hs. destruct (Hf s Hs) as (s1 & E1 & O1 & V1). rewrite E1. exact (Hg s1 O1).
    + exists UB. intros s Hs. destruct (Hf s Hs) as (s1 & E1 & O1 & V1). rewrite E1. exact (Hg s1 O1).
    + exists NoFuel. intros s Hs. destruct (Hf s Hs) as (s1 & E1 & O1 & V1). rewrite E1. exact (Hg s1 O1).
  - exists Throw. intros s Hs. rewrite (Hf s Hs). reflexivity.
  - exists UB. intros s Hs. rewrite (Hf s Hs). reflexivity.
  - exists NoFuel. intros s Hs. rewrite (Hf s Hs). reflexivity.
Qed.

Lemma lin_const : forall A (x : res A) pre post (f : A -> S -> res S), (forall a, x = Ok a -> exists o, lin pre post (f a) o) ->
  exists o, lin pre post (fun s => bind x (fun a => f a s)) o.
Proof.
  intros A x pre post f H. destruct x as [a| | |]; [apply H; auto|exists Throw|exists UB|exists NoFuel]; intros s Hs; reflexivity.
Qed.

Lemma lin_if : forall (b : bool) pre post f g, (exists o, lin pre post f o) -> (exists o, lin pre post g o) ->
  exists o, lin pre post (fun s => if b then f s else g s) o.
Proof. intros [] pre post f g Hf Hg; auto. Qed.

Lemma lin_fold_ok : forall A (pt : S -> A -> res S) (D : A -> I -> Qc) pre l, (forall x, In x l -> lin pre pre (fun s => pt s x) (Ok (D x))) ->
  lin pre pre (fun s => foldM pt l s) (Ok (fun i => sum_over l (fun x => D x i))).
Proof.
  intros A pt D pre. induction l as [|x l IH]; intros H.
  - apply lin_ret.
  - cbn [foldM]. apply (lin_seq_ok pre pre pre (fun s => pt s x) (fun s => foldM pt l s) (D x)).
    + apply H. simpl; auto.
    + apply IH. intros; apply H; simpl; auto.
Qed.

Lemma lin_fold : forall A (pt : S -> A -> res S) pre l, (forall x, In x l -> exists o, lin pre pre (fun s => pt s x) o) ->
  exists o, lin pre pre (fun s => foldM pt l s) o.
Proof.
  intros A pt pre. induction l as [|x l IH]; intros H.
  - eexists. apply lin_ret.
  - cbn [foldM]. destruct (H x) as [o1 H1]; [simpl; auto|]. apply (lin_seq pre pre pre (fun s => pt s x) (fun s => foldM pt l s) o1); auto.
    apply IH. intros; apply H; simpl; auto.
Qed.
End Lin.

(** ** Arrays *)

Definition dims {A} (k0 k1 k2 : Z) (a : arr A) : Prop :=
  d0 a = k0 /\ d1 a = k1 /\ d2 a = k2 /\ lenZ (dat a) = k0 * k1 * k2.

Lemma dims_wfa : forall A k0 k1 k2 (a : arr A), 0 <= k0 -> 0 <= k1 -> 0 <= k2 -> dims k0 k1 k2 a -> wfa a.
Proof. intros A k0 k1 k2 a H0 H1 H2 (E0 & E1 & E2 & L). unfold wfa. rewrite E0, E1, E2. auto. Qed.

Lemma tab_dims : forall A k0 k1 k2 (f : Z -> Z -> Z -> A), 0 <= k0 -> 0 <= k1 -> 0 <= k2 -> dims k0 k1 k2 (tab k0 k1 k2 f).
Proof. intros. unfold dims. split; auto. split; auto. split; auto. apply (tab_wfa A k0 k1 k2 f); auto. Qed.

Lemma nth_tab : forall A (d : A) k0 k1 k2 f r, 0 <= r < k0 * k1 * k2 ->
  nth (Z.to_nat r) (dat (tab k0 k1 k2 f)) d = f (r / (k1 * k2)) (r / k2 mod k1) (r mod k2).
Proof.
  intros A d k0 k1 k2 f r Hr. unfold tab. cbn [dat].
  rewrite (nth_indep _ d (f (0 / (k1 * k2)) (0 / k2 mod k1) (0 mod k2))) by (rewrite map_length, zseq_length; lia).
  rewrite (map_nth (fun p => f (p / (k1 * k2)) (p / k2 mod k1) (p mod k2)) _ 0).
  rewrite zseq_nth by lia. rewrite Z2Nat.id by lia. rewrite Z.add_0_l. reflexivity.
Qed.

Lemma plus_dims : forall k0 k1 k2 A v, 0 <= k0 -> 0 <= k1 -> 0 <= k2 -> dims k0 k1 k2 A -> dims k0 k1 k2 (plus A v).
Proof. intros k0 k1 k2 A v H0 H1 H2 (E0 & E1 & E2 & L). unfold plus. rewrite E0, E1, E2. apply tab_dims; auto. Qed.

Lemma qn_plus : forall k0 k1 k2 A v r, 1 <= k0 -> 1 <= k1 -> 1 <= k2 -> dims k0 k1 k2 A -> 0 <= r < k0 * k1 * k2 ->
  qn (dat (plus A v)) r = (qn (dat A) r + v (r / (k1 * k2))%Z (r / k2 mod k1)%Z (r mod k2)%Z)%Qc.
Proof.
  intros k0 k1 k2 A v r H0 H1 H2 (E0 & E1 & E2 & L) Hr. unfold plus, qn. rewrite E0, E1, E2. rewrite nth_tab by auto. f_equal.
  unfold at3. rewrite E1, E2. destruct (DilateTop.flat3_encode k0 k1 k2 r H1 H2 Hr) as (E & _). rewrite E. reflexivity.
Qed.

Lemma qn_upd : forall l i j v, 0 <= i < lenZ l -> 0 <= j -> qn (upd (Z.to_nat i) v l) j = if i =? j then v else qn l j.
Proof.
  intros l i j v Hi Hj. unfold qn, lenZ in *. rewrite upd_nth by lia.
  destruct (i =? j) eqn:E; destruct (Nat.eqb (Z.to_nat i) (Z.to_nat j)) eqn:F; auto.
  - apply Nat.eqb_neq in F; lia.
  - apply Nat.eqb_eq in F; lia.
Qed.

Lemma vget_qn : forall l i, 0 <= i < lenZ l -> vget l i = Ok (qn l i).
Proof.
  intros l i H. unfold vget, qn. replace (i <? 0) with false by lia. rewrite (nth_error_nth' l 0%Qc) by (unfold lenZ in H; lia). reflexivity.
Qed.

Lemma vget_oob : forall A (l : list A) i, ~ (0 <= i < lenZ l) -> vget l i = UB.
Proof.
  intros A l i H. unfold vget. destruct (i <? 0) eqn:E; auto.
  destruct (nth_error l (Z.to_nat i)) eqn:F; auto. exfalso. apply H. assert (nth_error l (Z.to_nat i) <> None) by congruence.
  apply nth_error_Some in H0. unfold lenZ. lia.
Qed.

(** One element of an array. *)
Definition vecA (a : arr Qc) (r : Z) : Qc := qn (dat a) r.
Definition ixA (k0 k1 k2 r : Z) : Prop := 0 <= r < k0 * k1 * k2.

(** Position in the buffer, for the strides of an array of this shape. *)
Definition soff (k0 k1 k2 a b c : Z) : Z :=
  (if k0 =? 1 then 0 else a * (k1 * k2)) + (if k1 =? 1 then 0 else b * k2) + (if k2 =? 1 then 0 else c).

Lemma soff_eq : forall k0 k1 k2 (m : arr Qc) a b c, dims k0 k1 k2 m -> stride_off m a b c = soff k0 k1 k2 a b c.
Proof. intros k0 k1 k2 m a b c (E0 & E1 & E2 & _). unfold stride_off, soff. rewrite E0, E1, E2. reflexivity. Qed.

Lemma lin_incr_ok : forall k0 k1 k2 a b c v, 0 <= soff k0 k1 k2 a b c < k0 * k1 * k2 ->
  lin vecA (ixA k0 k1 k2) (dims k0 k1 k2) (dims k0 k1 k2) (fun m => incr m a b c v) (Ok (fun r => if soff k0 k1 k2 a b c =? r then v else 0%Qc)).
Proof.
  intros k0 k1 k2 a b c v HO m HD. unfold incr. cbv zeta. rewrite (soff_eq k0 k1 k2) by auto.
  destruct HD as (E0 & E1 & E2 & L). rewrite vget_qn by lia. rewrite bind_Ok, vset_ok by lia. rewrite bind_Ok.
  eexists. split; [reflexivity|]. split.
  - unfold dims. cbn [d0 d1 d2 dat]. rewrite upd_lenZ. auto.
  - intros r Hr. unfold ixA in Hr. unfold vecA. cbn [dat]. rewrite qn_upd by lia. destruct (Z.eqb_spec (soff k0 k1 k2 a b c) r) as [<-|]; ring.
Qed.

Lemma lin_incr : forall k0 k1 k2 a b c v, exists o,
  lin vecA (ixA k0 k1 k2) (dims k0 k1 k2) (dims k0 k1 k2) (fun m => incr m a b c v) o.
Proof.
  intros k0 k1 k2 a b c v.
  assert (D : 0 <= soff k0 k1 k2 a b c < k0 * k1 * k2 \/ ~ 0 <= soff k0 k1 k2 a b c < k0 * k1 * k2) by lia.
  destruct D as [HO|HO]; [eexists; apply lin_incr_ok; auto|].
  exists UB. intros m HD. unfold incr. cbv zeta. rewrite (soff_eq k0 k1 k2) by auto. destruct HD as (E0 & E1 & E2 & L).
  rewrite vget_oob by lia. reflexivity.
Qed.

(** ** Ensembles *)

Inductive comp := C_first | C_second | C_norm.
Definition vecE (e : ens) (i : comp * Z) : Qc :=
  match fst i with
  | C_first => qn (dat (e_first e)) (snd i)
  | C_second => qn (dat (e_second e)) (snd i)
  | C_norm => qn (dat (e_norm e)) (snd i)
  end.
Definition ixE (k0 k1 k2 : Z) (i : comp * Z) : Prop := 0 <= snd i < k0 * k1 * k2.

(** Configuration and shape of an ensemble. *)
Record okE (per var : bool) (roi : list Z) (k0 k1 k2 : Z) (e : ens) : Prop := mkokE {
  ok_per : e_per e = per; ok_var : e_var e = var; ok_roi : e_roi e = roi;
  ok_first : dims k0 k1 k2 (e_first e); ok_second : dims k0 k1 k2 (e_second e); ok_norm : dims k0 k1 k2 (e_norm e)
}.

(** Also the statistic. *)
Definition okS (s : stat) (per var : bool) (roi : list Z) (k0 k1 k2 : Z) (e : ens) : Prop :=
  okE per var roi k0 k1 k2 e /\ e_stat e = s.

Lemma ok_pad : forall per var roi k0 k1 k2 e, okE per var roi k0 k1 k2 e -> e_pad e = pad_width k0 k1 k2.
Proof. intros per var roi k0 k1 k2 e [_ _ _ (E0 & E1 & E2 & _) _ _]. unfold e_pad. rewrite E0, E1, E2. reflexivity. Qed.

Lemma ok_set_data : forall s per var roi k0 k1 k2 e a b c, okS s per var roi k0 k1 k2 e ->
  dims k0 k1 k2 a -> dims k0 k1 k2 b -> dims k0 k1 k2 c -> okS s per var roi k0 k1 k2 (set_data e a b c).
Proof. intros s per var roi k0 k1 k2 e a b c [[O1 O2 O3 O4 O5 O6] O7] A B C. split; [split; auto|auto]. Qed.

Lemma ok_set_stat : forall s per var roi k0 k1 k2 e, okE per var roi k0 k1 k2 e -> okS s per var roi k0 k1 k2 (set_stat e s).
Proof. intros s per var roi k0 k1 k2 e [O1 O2 O3 O4 O5 O6]. split; [split; auto|auto]. Qed.

Lemma vec_set_stat : forall e s i, vecE (set_stat e s) i = vecE e i.
Proof. intros. reflexivity. Qed.

(** The constructor. *)
Lemma ensemble_ok : forall asrt roi per var k0 k1 k2, (length roi <= 3)%nat -> shape3 roi = Ok (k0, k1, k2) ->
  1 <= k0 /\ 1 <= k1 /\ 1 <= k2 ->
  exists e, ensemble asrt roi per var = Ok e /\ okS Unset per var roi k0 k1 k2 e /\ forall i, ixE k0 k1 k2 i -> vecE e i = 0%Qc.
Proof.
  intros asrt roi per var k0 k1 k2 HL Hs (K0 & K1 & K2). unfold ensemble. rewrite Hs.
  replace (assertb asrt (Nat.leb (length roi) 3)) with (Ok tt) by (unfold assertb; apply Nat.leb_le in HL; rewrite HL; destruct asrt; reflexivity).
  rewrite !bind_Ok. eexists. split; [reflexivity|]. split.
  - split; [|reflexivity]. split; auto; apply tab_dims; lia.
  - intros [[] r] Hr; unfold ixE in Hr; cbn [snd] in Hr; unfold vecE; cbn [fst snd e_first e_second e_norm]; unfold qn; rewrite nth_tab by auto; reflexivity.
Qed.

(** Adding to all three. *)
Lemma lin_set_data : forall s per var roi k0 k1 k2 v1 v2 v3, 1 <= k0 /\ 1 <= k1 /\ 1 <= k2 ->
  lin vecE (ixE k0 k1 k2) (okS s per var roi k0 k1 k2) (okS s per var roi k0 k1 k2)
    (fun e => Ok (set_data e (plus (e_first e) v1) (plus (e_second e) v2) (plus (e_norm e) v3)))
    (Ok (fun i => let r := snd i in
       match fst i with C_first => v1 | C_second => v2 | C_norm => v3 end (r / (k1 * k2)) (r / k2 mod k1) (r mod k2))).
Proof.
  intros s per var roi k0 k1 k2 v1 v2 v3 (K0 & K1 & K2) e HO. pose proof HO as [[_ _ _ D1 D2 D3] _]. eexists. split; [reflexivity|]. split.
  - apply ok_set_data; auto; apply plus_dims; auto; lia.
  - intros [[] r] Hr; unfold ixE in Hr; cbn [snd] in Hr; unfold vecE; cbn [fst snd e_first e_second e_norm set_data];
      rewrite (qn_plus k0 k1 k2) by auto; reflexivity.
Qed.

(** Any of the accumulators may also be left alone. *)
Definition plus_if (b : bool) (A : arr Qc) (v : Z -> Z -> Z -> Qc) : arr Qc := if b then plus A v else A.

Lemma lin_set_data_if : forall s per var roi k0 k1 k2 b1 b2 b3 v1 v2 v3, 1 <= k0 /\ 1 <= k1 /\ 1 <= k2 ->
  lin vecE (ixE k0 k1 k2) (okS s per var roi k0 k1 k2) (okS s per var roi k0 k1 k2)
    (fun e => Ok (set_data e (plus_if b1 (e_first e) v1) (plus_if b2 (e_second e) v2) (plus_if b3 (e_norm e) v3)))
    (Ok (fun i => let r := snd i in
       match fst i with
       | C_first => if b1 then v1 (r / (k1 * k2)) (r / k2 mod k1) (r mod k2) else 0%Qc
       | C_second => if b2 then v2 (r / (k1 * k2)) (r / k2 mod k1) (r mod k2) else 0%Qc
       | C_norm => if b3 then v3 (r / (k1 * k2)) (r / k2 mod k1) (r mod k2) else 0%Qc
       end)).
Proof.
  intros s per var roi k0 k1 k2 b1 b2 b3 v1 v2 v3 (K0 & K1 & K2) e HO. pose proof HO as [[_ _ _ D1 D2 D3] _]. eexists. split; [reflexivity|]. split.
  - apply ok_set_data; auto; unfold plus_if; [destruct b1|destruct b2|destruct b3]; auto; apply plus_dims; auto; lia.
  - intros [[] r] Hr; unfold ixE in Hr; cbn [snd] in Hr; unfold vecE; cbn [fst snd e_first e_second e_norm set_data]; unfold plus_if;
      [destruct b1|destruct b2|destruct b3]; rewrite ?(qn_plus k0 k1 k2) by auto; try reflexivity; ring.
Qed.
