(** * DilateMore: labels beyond the list of iterations (proofs only). *)

From Coq Require Import ZArith List Bool Lia.
From Verif Require Import Base BaseLemmas Cluster SpecCluster Array3 Array3Lemmas Dilate DilateProofs SpecDilate DilateTop.
Import ListNotations.
Open Scope Z_scope.

(** Neither an exception nor an endless loop. *)
Definition quiet {A} (r : res A) : Prop := match r with Ok _ | UB => True | _ => False end.

Lemma quiet_bind : forall A B (r : res A) (k : A -> res B), quiet r -> (forall a, quiet (k a)) -> quiet (bind r k).
Proof. intros A B [a| | |] k H K; cbn in *; auto. Qed.

Lemma quiet_foldM : forall A S (f : S -> A -> res S) l s, (forall s a, quiet (f s a)) -> quiet (foldM f l s).
Proof. induction l as [|a l IH]; intros s H; cbn [foldM]; [exact I|]. apply quiet_bind; auto. Qed.

Lemma quiet_vget : forall l i, quiet (@vget Z l i).
Proof.
  intros l i. destruct (vget l i) eqn:E; cbn; auto; exfalso; unfold vget in E;
    repeat match type of E with context [if ?c then _ else _] => destruct c | context [match ?c with _ => _ end] => destruct c end; discriminate.
Qed.

Lemma quiet_copy : forall ax t s len a, quiet (copy_slab ax t s len a).
Proof. intros. unfold copy_slab. destruct (_ && _); exact I. Qed.

Lemma quiet_periodic_copy : forall P a, quiet (periodic_copy P a).
Proof.
  intros P a. unfold periodic_copy. apply quiet_bind.
  - unfold above_to_below. apply quiet_foldM. intros b ax. destruct (dim ax b <=? 1); [exact I|].
    destruct (pad_of P ax). apply quiet_copy.
  - intros b. unfold below_to_above. apply quiet_foldM. intros c ax. destruct (dim ax c <=? 1); [exact I|].
    destruct (pad_of P ax). apply quiet_copy.
Qed.

Lemma quiet_iter : forall per iterations K P F iter, quiet (dil_iter per iterations K P F iter).
Proof.
  intros per iterations K [[[p0 q0] [p1 q1]] [p2 q2]] F iter. unfold dil_iter. apply quiet_bind.
  - apply quiet_foldM. intros G [[h i] j]. unfold dil_point. apply quiet_bind.
    + unfold aget. destruct (inb F h i j); [apply quiet_vget|exact I].
    + intros l. destruct (l =? 0); [exact I|]. apply quiet_bind; [apply quiet_vget|].
      intros n. destruct (n <=? iter); [exact I|]. destruct (_ && _); exact I.
  - intros G. destruct per; [apply quiet_periodic_copy|exact I].
Qed.

Lemma quiet_pad : forall a P, quiet (pad_periodic 0 a P).
Proof. intros a [[[p0 q0] [p1 q1]] [p2 q2]]. unfold pad_periodic. destruct (_ && _); exact I. Qed.

Lemma quiet_amax : forall l, quiet (amax l).
Proof. intros [|x l]; exact I. Qed.

(** If [dilate] returns, and makes at least one iteration, every label has its number of
    iterations. *)
Lemma dilate_returns_valid : forall asrt shape f ks kv iterations per ret,
  image shape f -> kernel ks kv -> (forall n, In n iterations -> 0 <= n) -> (exists n, In n iterations /\ 0 < n) ->
  dilate asrt shape f ks kv iterations per = Ok ret -> valid f iterations.
Proof.
  intros asrt shape f ks kv iterations per ret (Hpos & Lf) (Kpos & Lk) Hnn (n' & Hn' & Pn') E. unfold dilate in E.
  do 4 (apply bind_ok in E; destruct E as (? & _ & E)).
  unfold atleast_3d in E. apply bind_ok in E. destruct E as (K & EK & E). apply bind_ok in EK.
  destruct EK as ([[k0 k1] k2] & Hk & EK). injection EK as <-.
  apply bind_ok in E. destruct E as (f3 & Ef & E). apply bind_ok in Ef. destruct Ef as ([[n0 n1] n2] & Hs & Ef). injection Ef as <-.
  cbn [d0 d1 d2] in E. match goal with X : (if ?c then _ else _) = _ |- _ => destruct c; [discriminate|] end.
  pose proof (shape3_pos _ _ _ _ Hs Hpos) as Pn. pose proof (shape3_kernel _ _ _ _ Hk Kpos) as Pk.
  rewrite (shape3_prod _ _ _ _ Hs) in Lf. rewrite (pad_P k0 k1 k2 Pk) in E.
  apply bind_ok in E. destruct E as (F0 & E0 & E). apply bind_ok in E. destruct E as (n & En & E).
  apply bind_ok in E. destruct E as (F & EF & E).
  change (padded n0 n1 n2 k0 k1 k2 f per = Ok F0) in E0.
  pose proof (padded_inv n0 n1 n2 k0 k1 k2 f per F0 E0) as HF.
  assert (Hit : iterations <> []) by (destruct iterations; [discriminate|congruence]).
  destruct (amax_ok iterations Hit) as (m & En' & Hin & Hmax). rewrite En in En'. injection En' as <-.
  specialize (Hmax _ Hn').
  exact (core_valid n0 n1 n2 k0 k1 k2 f kv iterations per Pn Pk Lf Hnn HF F0 F n ltac:(lia) E0 EF).
Qed.

Lemma dilate_outside : forall asrt shape f ks kv iterations per,
  (length shape <= 3)%nat -> image shape f -> length ks = length shape -> kernel ks kv ->
  (forall k, In k kv -> k = 0 \/ k = 1) ->
  (forall n, In n iterations -> 0 <= n) -> (exists n, In n iterations /\ 0 < n) -> 2 <= lenZ iterations ->
  (forall l, In l f -> 0 <= l < 2 ^ 62) -> (exists l, In l f /\ lenZ iterations <= l) ->
  (asrt = true -> forall l, In l f -> l <= lenZ iterations + 1) ->
  dilate asrt shape f ks kv iterations per = UB.
Proof.
  intros asrt shape f ks kv iterations per Hrank Him HL Hker Hk01 Hnn Hpos H2 Hl (l & Hin & Hbig) Hguard.
  assert (Q : quiet (dilate asrt shape f ks kv iterations per)).
  { unfold dilate.
    assert (A1 : assertb asrt (Nat.leb (length shape) 3) = Ok tt).
    { unfold assertb. destruct asrt; auto. apply Nat.leb_le in Hrank. rewrite Hrank. auto. }
    assert (A2 : assertb asrt (Nat.eqb (length shape) (length ks)) = Ok tt).
    { unfold assertb. destruct asrt; auto. rewrite HL, Nat.eqb_refl. auto. }
    assert (A3 : assertb asrt (forallb (fun k => (k =? 0) || (k =? 1)) kv) = Ok tt).
    { unfold assertb. destruct asrt; auto. assert (forallb (fun k => (k =? 0) || (k =? 1)) kv = true) as ->; auto.
      apply forallb_forall. intros x Hx. specialize (Hk01 x Hx). apply orb_true_iff. lia. }
    assert (A4 : (if asrt then m <- amax f ;; assertb true (u64 m <=? lenZ iterations + 1) else Ok tt) = Ok tt).
    { destruct asrt; auto. assert (Hf : f <> []) by (intros ->; destruct Hin).
      destruct (amax_ok f Hf) as (m & Em & Hm & _). rewrite Em, bind_Ok. specialize (Hguard eq_refl m Hm).
      specialize (Hl m Hm). unfold assertb.
      assert (u64 m <= m) by (unfold u64; apply Z.mod_le; [lia|reflexivity]).
      replace (u64 m <=? lenZ iterations + 1) with true by lia. auto. }
    rewrite A1, A2, A3, A4, !bind_Ok.
    destruct (shape3_len shape Hrank) as (n0 & n1 & n2 & Hs).
    destruct (shape3_len ks ltac:(lia)) as (k0 & k1 & k2 & Hk).
    unfold atleast_3d. rewrite Hk, Hs, !bind_Ok. cbn [d0 d1 d2].
    destruct (_ || _); [exact I|]. apply quiet_bind; [destruct per; [apply quiet_pad|exact I]|].
    intros F. apply quiet_bind; [apply quiet_amax|]. intros n. apply quiet_bind.
    - apply quiet_foldM. intros. apply quiet_iter.
    - intros. exact I. }
  destruct (dilate asrt shape f ks kv iterations per) as [ret| | |] eqn:E; cbn in Q; try tauto.
  exfalso. pose proof (dilate_returns_valid _ _ _ _ _ _ _ _ Him Hker Hnn Hpos E) as V.
  destruct (V l Hin ltac:(lia)) as [X _]. unfold iter_of in X.
  replace (lenZ iterations =? 1) with false in X by lia. apply vget_inv in X. lia.
Qed.
