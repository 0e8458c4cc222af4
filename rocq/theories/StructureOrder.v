(** * StructureOrder: which samples [Structure] accepts, and their order *)

From Coq Require Import ZArith List Bool Reals Lra Lia Permutation.
From Verif Require Import Base BaseLemmas Structure SpecStructure StructureProofs StructureProofs2 StructureTop.
Import ListNotations.
Open Scope Z_scope.

(** What one sample contributes. *)
Definition contribution (d : data) (junk : Z -> Z -> R) : res (list Z -> R) :=
  match d with
  | Data1 n u => r <- sample1 Float n u (junk 0) ;; Ok (fun i => vat r (nth 0 i 0))
  | Data2 n m u => r <- sample2 Float n m u junk ;; Ok (fun i => mat_at r (nth 0 i 0) (nth 1 i 0))
  | IntData1 n u => r <- sample1 Integer n (fun j => IZR (u j)) (junk 0) ;; Ok (fun i => vat r (nth 0 i 0))
  | IntData2 n m u => r <- sample2 Integer n m (fun a b => IZR (u a b)) junk ;; Ok (fun i => mat_at r (nth 0 i 0) (nth 1 i 0))
  end.

Lemma add_sample_eq : forall st d junk, add_sample st d junk = (x <- contribution d junk ;; accumulate st (shape_of d) x).
Proof. intros st [n u|n m u|n u|n m u] junk; cbn [add_sample contribution shape_of]; match goal with |- context [bind ?x _] => destruct x end; reflexivity. Qed.

Lemma contribution_ok : forall d junk,
  (Forall (fun n => 1 <= n) (shape_of d) -> exists x, contribution d junk = Ok x) /\
  (~ Forall (fun n => 1 <= n) (shape_of d) -> contribution d junk = Throw).
Proof.
  assert (A : forall dt n u junk, (1 <= n -> exists r, sample1 dt n u junk = Ok r) /\ (~ 1 <= n -> sample1 dt n u junk = Throw)).
  { intros dt n u junk. split; intros H; [destruct (sample1_ok dt n u junk H) as (r & -> & _); eauto|].
    unfold sample1. destruct (n <? 1) eqn:E; [reflexivity|lia]. }
  assert (B : forall dt n m u junk, (1 <= n /\ 1 <= m -> exists r, sample2 dt n m u junk = Ok r) /\ (~ (1 <= n /\ 1 <= m) -> sample2 dt n m u junk = Throw)).
  { intros dt n m u junk. split; [intros [H1 H2]; destruct (sample2_ok dt n m u junk H1 H2) as (r & -> & _); eauto|].
    intros H. unfold sample2. destruct ((n <? 1) || (m <? 1)) eqn:E; [reflexivity|lia]. }
  assert (F1 : forall n, Forall (fun n => 1 <= n) [n] <-> 1 <= n) by (intro n; rewrite Forall_forall; split; [intros H; apply H; now left|intros H x [<-|[]]; exact H]).
  assert (F2 : forall n m, Forall (fun n => 1 <= n) [n; m] <-> 1 <= n /\ 1 <= m).
  { intros n m. rewrite Forall_forall. split; [intros H; split; apply H; cbn; auto|intros [H1 H2] x [<-|[<-|[]]]; assumption]. }
  intros [n u|n m u|n u|n m u] junk; cbn [shape_of contribution]; rewrite ?F1, ?F2;
    match goal with |- context [sample1 ?dt ?n ?u ?j] => destruct (A dt n u j) as [P Q] | |- context [sample2 ?dt ?n ?m ?u ?j] => destruct (B dt n m u j) as [P Q] end;
    (split; intros H; [destruct (P H) as (r & ->); cbn [bind]; eauto|rewrite (Q H); reflexivity]).
Qed.

Lemma shape_eqb_eq : forall a b, shape_eqb a b = true <-> a = b.
Proof. intros a b. unfold shape_eqb. destruct (list_eq_dec Z.eq_dec a b); split; congruence. Qed.

Lemma allocate_ok : forall d, Forall (fun n => 1 <= n) (shape_of d) ->
  (usable (shape_of d) -> exists st, allocate (shape_of d) = Ok st /\ st_shape st = shape_of d /\ st_norm st = 0) /\
  (~ usable (shape_of d) -> allocate (shape_of d) = Throw).
Proof.
  assert (W : forall d : data, exists d', shape_of d = shape_of d' /\ match d' with Data1 _ _ | Data2 _ _ _ => True | _ => False end).
  { intros [n u|n m u|n u|n m u]; [exists (Data1 n u)|exists (Data2 n m u)|exists (Data1 n (fun _ => 0%R))|exists (Data2 n m (fun _ _ => 0%R))]; auto. }
  intros d0. destruct (W d0) as (d & -> & HD). destruct d as [n u|n m u|n u|n m u]; try contradiction; intros HP; cbn [shape_of allocate] in *.
  - split; [eauto|]. intros H. exfalso. apply H. split; auto. intros a b [<-|[]] [<-|[]]. reflexivity.
  - assert (B : forall a, a mod 2 = 0 \/ a mod 2 = 1) by (intros a; pose proof (Z.mod_pos_bound a 2 ltac:(lia)); lia).
    destruct (Bool.eqb (n mod 2 =? 0) (m mod 2 =? 0)) eqn:E.
    + split; [eauto|]. intros H. exfalso. apply H. split; auto. apply Bool.eqb_prop in E.
      assert (EQ : n mod 2 = m mod 2).
      { destruct (B n) as [A1|A1]; destruct (B m) as [A2|A2]; rewrite A1, A2 in *; auto; discriminate. }
      intros a b [<-|[<-|[]]] [<-|[<-|[]]]; congruence.
    + split; [|reflexivity]. intros [_ H]. exfalso. rewrite (H n m) in E by (cbn; auto). rewrite Bool.eqb_reflx in E. discriminate.
Qed.

Lemma accumulate_some : forall st shape x, st_shape st = shape ->
  accumulate (Some st) shape x = Ok (mkstat shape (fun i => match st_first st i with Some y => Some (y + x i)%R | None => None end) (st_norm st + 1)).
Proof. intros st shape x <-. unfold accumulate. cbn [bind]. rewrite (proj2 (shape_eqb_eq _ _) eq_refl). reflexivity. Qed.

(** The shape of a state that was reached is that of a usable sample, if any sample or shape was
    given. *)
Definition good (st : option stat) : Prop :=
  match st with None => True | Some s => (exists d : data, st_shape s = shape_of d) /\ (forall a b, In a (st_shape s) -> In b (st_shape s) -> a mod 2 = b mod 2) end.

Lemma allocate_good : forall shape st, allocate shape = Ok st -> st_shape st = shape /\ good (Some st).
Proof.
  intros [|n [|m [|]]] st H; cbn [allocate] in H; try discriminate.
  - inversion H; subst. split; [reflexivity|]. split; [exists (Data1 n (fun _ => 0%R)); reflexivity|]. intros a b [<-|[]] [<-|[]]. reflexivity.
  - destruct (Bool.eqb (n mod 2 =? 0) (m mod 2 =? 0)) eqn:E; [|discriminate]. inversion H; subst. split; [reflexivity|].
    split; [exists (Data2 n m (fun _ _ => 0%R)); reflexivity|]. cbn [st_shape].
    assert (B : forall a, a mod 2 = 0 \/ a mod 2 = 1) by (intros a; pose proof (Z.mod_pos_bound a 2 ltac:(lia)); lia).
    apply Bool.eqb_prop in E.
    assert (EQ : n mod 2 = m mod 2) by (destruct (B n) as [A1|A1]; destruct (B m) as [A2|A2]; rewrite A1, A2 in *; auto; discriminate).
    intros a b [<-|[<-|[]]] [<-|[<-|[]]]; congruence.
Qed.

Lemma accumulate_good : forall st shape x st', good st -> accumulate st shape x = Ok st' -> good (Some st').
Proof.
  intros st shape x st' HG H. unfold accumulate in H.
  assert (G : forall s, good (Some s) -> (if shape_eqb (st_shape s) shape then Ok (mkstat (st_shape s) (fun i => match st_first s i with Some y => Some (y + x i)%R | None => None end) (st_norm s + 1)) else Throw) = Ok st' -> good (Some st')).
  { intros s HS HE. destruct (shape_eqb (st_shape s) shape); [|discriminate]. inversion HE; subst. exact HS. }
  destruct st as [s|]; cbn [bind] in H; [eauto|]. destruct (allocate shape) as [s| | |] eqn:E; cbn [bind] in H; try discriminate.
  eapply G; [|exact H]. apply (allocate_good _ _ E).
Qed.

Lemma history_good : forall l st st', good st -> add_samples st l = Ok st' -> good st'.
Proof.
  induction l as [|[d junk] l IH]; intros st st' HG H; cbn in H; [inversion H; subst; exact HG|].
  unfold add_samples in H. cbn [foldM fst snd] in H. rewrite add_sample_eq in H. destruct (contribution d junk) as [x| | |]; cbn [bind] in H; try discriminate.
  destruct (accumulate st (shape_of d) x) as [s| | |] eqn:E; cbn [bind] in H; try discriminate.
  apply (IH (Some s)); [eapply accumulate_good; eauto|exact H].
Qed.

Lemma fresh_good : forall shape start, fresh shape start -> good start.
Proof. intros shape start [->|(st & H & ->)]; [exact I|]. apply (allocate_good _ _ H). Qed.

Lemma accepted : forall shape start l st d junk, fresh shape start -> add_samples start l = Ok st ->
  let fits := usable (shape_of d) /\ (forall s, st = Some s -> st_shape s = shape_of d) in
  (fits -> exists st', add_sample st d junk = Ok st' /\ st_shape st' = shape_of d /\
             st_norm st' = 1 + match st with Some s => st_norm s | None => 0 end) /\
  (~ fits -> add_sample st d junk = Throw).
Proof.
  intros shape start l st d junk HF HA fits. pose proof (history_good _ _ _ (fresh_good _ _ HF) HA) as HG. rewrite add_sample_eq.
  destruct (contribution_ok d junk) as [C1 C2]. split.
  - intros [HU HS]. destruct (C1 (proj1 HU)) as [x ->]. cbn [bind]. destruct st as [s|].
    + rewrite accumulate_some by auto. eexists. split; [reflexivity|]. cbn [st_shape st_norm]. split; [reflexivity|lia].
    + destruct (proj1 (allocate_ok d (proj1 HU)) HU) as (s & ES & E1 & E2). unfold accumulate. rewrite ES. cbn [bind].
      rewrite E1, (proj2 (shape_eqb_eq _ _) eq_refl). eexists. split; [reflexivity|]. cbn [st_shape st_norm]. split; [reflexivity|lia].
  - intros HN. destruct (Forall_dec (fun n => 1 <= n) (fun n => Z_le_dec 1 n) (shape_of d)) as [P|P]; [|rewrite (C2 P); reflexivity].
    destruct (C1 P) as [x ->]. cbn [bind]. destruct st as [s|].
    + unfold accumulate. cbn [bind]. destruct (shape_eqb (st_shape s) (shape_of d)) eqn:E; [|reflexivity]. exfalso. apply HN.
      apply shape_eqb_eq in E. destruct HG as [_ HG]. rewrite E in HG. split; [split; assumption|]. intros s' HS. inversion HS; subst. exact E.
    + unfold accumulate. destruct (list_eq_dec Z.eq_dec [] []) as [_|]; [|congruence].
      assert (NU : ~ usable (shape_of d)) by (intros HU; apply HN; split; [exact HU|discriminate]).
      rewrite (proj2 (allocate_ok d P) NU). reflexivity.
Qed.

(** ** Order *)

Lemma step_swap : forall st a b s, add_samples st [a; b] = Ok s ->
  exists s', add_samples st [b; a] = Ok s' /\ match s, s' with
    | Some s, Some s' => st_shape s = st_shape s' /\ st_norm s = st_norm s' /\ forall i, st_first s i = st_first s' i
    | _, _ => False end.
Proof.
  intros st [d j] [d' j'] s H. unfold add_samples in *. cbn [foldM fst snd] in *. rewrite !add_sample_eq in *.
  destruct (contribution d j) as [x| | |] eqn:CX; cbn [bind] in H; try discriminate.
  destruct (accumulate st (shape_of d) x) as [s1| | |] eqn:E1; cbn [bind] in H; try discriminate.
  rewrite add_sample_eq in H. destruct (contribution d' j') as [y| | |] eqn:CY; cbn [bind] in H |- *; try discriminate.
  destruct (accumulate (Some s1) (shape_of d') y) as [s2| | |] eqn:E2; cbn [bind] in H; try discriminate. inversion H; subst s; clear H.
  unfold accumulate in E2. cbn [bind] in E2. destruct (shape_eqb (st_shape s1) (shape_of d')) eqn:Q2; [|discriminate]. apply shape_eqb_eq in Q2. inversion E2; subst s2; clear E2.
  assert (exists s0, (match st with Some st => Ok st | None => allocate (shape_of d) end) = Ok s0 /\ st_shape s0 = shape_of d /\
    s1 = mkstat (shape_of d) (fun i => match st_first s0 i with Some y => Some (y + x i)%R | None => None end) (st_norm s0 + 1)) as (s0 & ES & SS & ->).
  { unfold accumulate in E1. destruct (match st with Some st0 => Ok st0 | None => allocate (shape_of d) end) as [s0| | |]; cbn [bind] in E1; try discriminate.
    destruct (shape_eqb (st_shape s0) (shape_of d)) eqn:Q; [|discriminate]. apply shape_eqb_eq in Q. rewrite Q in E1. inversion E1; subst. eauto. }
  cbn [st_shape] in Q2. unfold accumulate at 1. rewrite <- Q2, ES. cbn [bind]. rewrite SS, (proj2 (shape_eqb_eq _ _) eq_refl). cbn [bind].
  rewrite add_sample_eq, CX. cbn [bind]. rewrite accumulate_some by reflexivity. cbn [bind]. eexists. split; [reflexivity|]. cbn [st_shape st_norm st_first].
  split; [reflexivity|]. split; [reflexivity|]. intros i. destruct (st_first s0 i); [f_equal; lra|reflexivity].
Qed.

Definition same_state (s s' : option stat) : Prop :=
  match s, s' with
  | None, None => True
  | Some s, Some s' => st_shape s = st_shape s' /\ st_norm s = st_norm s' /\ forall i, st_first s i = st_first s' i
  | _, _ => False
  end.

Lemma same_refl : forall s, same_state s s.
Proof. intros [s|]; cbn; auto. Qed.

Lemma same_trans : forall a b c, same_state a b -> same_state b c -> same_state a c.
Proof.
  intros [a|] [b|] [c|]; cbn; try tauto. intros (A1 & A2 & A3) (B1 & B2 & B3). split; [congruence|]. split; [congruence|]. intros i. rewrite A3. apply B3.
Qed.

Lemma step_same : forall a b p s, same_state a b -> add_samples a [p] = Ok s -> exists s', add_samples b [p] = Ok s' /\ same_state s s'.
Proof.
  intros a b [d j] s HS H. unfold add_samples in *. cbn [foldM fst snd] in *. rewrite !add_sample_eq in *.
  destruct (contribution d j) as [x| | |]; cbn [bind] in *; try discriminate.
  destruct a as [a|]; destruct b as [b|]; try contradiction.
  - destruct HS as (S1 & S2 & S3). unfold accumulate in *. cbn [bind] in *. rewrite <- S1. destruct (shape_eqb (st_shape a) (shape_of d)); [|discriminate].
    cbn [bind] in *. inversion H; subst. eexists. split; [reflexivity|]. cbn. repeat split; [congruence|]. intros i. rewrite S3. reflexivity.
  - eexists. split; [exact H|apply same_refl].
Qed.

Lemma add_app : forall l l' st, add_samples st (l ++ l') = (s <- add_samples st l ;; add_samples s l').
Proof.
  unfold add_samples. induction l as [|p l IH]; intros l' st; cbn [app foldM bind]; [reflexivity|].
  destruct (add_sample st (fst p) (snd p)); cbn [bind]; auto.
Qed.

Lemma add_cons : forall p l st, add_samples st (p :: l) = (s <- add_samples st [p] ;; add_samples s l).
Proof. intros p l st. apply (add_app [p] l st). Qed.

Lemma run_same : forall l a b s, same_state a b -> add_samples a l = Ok s -> exists s', add_samples b l = Ok s' /\ same_state s s'.
Proof.
  induction l as [|p l IH]; intros a b s HS H; [cbn in *; inversion H; subst; eauto|].
  rewrite add_cons in *. destruct (add_samples a [p]) as [s1| | |] eqn:E; cbn [bind] in H; try discriminate.
  destruct (step_same _ _ _ _ HS E) as (s2 & -> & HS2). cbn [bind]. eapply IH; eauto.
Qed.

Lemma any_order : forall l l', Permutation l l' -> forall st s, add_samples st l = Ok s -> exists s', add_samples st l' = Ok s' /\ same_state s s'.
Proof.
  intros l l' H. induction H as [|p l l' HP IH|p q l|l l' l'' H1 IH1 H2 IH2]; intros st s HA.
  - exists s. split; [exact HA|apply same_refl].
  - rewrite add_cons in *. destruct (add_samples st [p]) as [s1| | |]; cbn [bind] in *; try discriminate. apply IH. exact HA.
  - change (q :: p :: l) with ([q; p] ++ l) in HA. change (p :: q :: l) with ([p; q] ++ l). rewrite add_app in *.
    destruct (add_samples st [q; p]) as [s1| | |] eqn:E; cbn [bind] in HA; try discriminate.
    destruct (step_swap _ _ _ _ E) as (s2 & -> & HS). cbn [bind]. apply run_same with (a := s1); [|exact HA].
    destruct s1, s2; try contradiction. exact HS.
  - destruct (IH1 _ _ HA) as (s1 & E1 & S1). destruct (IH2 _ _ E1) as (s2 & E2 & S2). exists s2. split; [exact E2|eapply same_trans; eauto].
Qed.

Lemma any_order_mean : forall start l l' st, Permutation l l' -> add_samples start l = Ok (Some st) ->
  exists st', add_samples start l' = Ok (Some st') /\ st_shape st' = st_shape st /\ st_norm st' = st_norm st /\ forall i, mean st' i = mean st i.
Proof.
  intros start l l' st HP H. destruct (any_order _ _ HP _ _ H) as ([s|] & E & HS); [|contradiction]. destruct HS as (S1 & S2 & S3).
  exists s. split; [exact E|]. split; [congruence|]. split; [congruence|]. intros i. unfold mean. rewrite S3, S2. reflexivity.
Qed.
