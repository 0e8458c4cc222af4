(** * StructureExnTop: proofs about [Structure] after exceptions *)

From Coq Require Import ZArith List Bool Lia Reals.
From Verif Require Import Base BaseLemmas Structure SpecStructure StructureProofs StructureProofs2 StructureTop StructureOrder StructureExn SpecStructureExn.
Import ListNotations.
Open Scope Z_scope.

Lemma offer_eq : forall st d junk, offer st d junk =
  match contribution d junk with Ok x => accumulate_x st (shape_of d) x | _ => (st, true) end.
Proof. intros st [n u|n m u|n u|n m u] junk; cbn [offer contribution shape_of]; match goal with |- context [bind ?x _] => destruct x end; reflexivity. Qed.

Lemma accumulate_x_some : forall s shape x, accumulate_x (Some s) shape x =
  match accumulate (Some s) shape x with Ok s' => (Some s', false) | _ => (Some s, true) end.
Proof. reflexivity. Qed.

Lemma accumulate_alloc : forall shape s x, allocate shape = Ok s -> accumulate None shape x = accumulate (Some s) shape x.
Proof. intros shape s x E. unfold accumulate. rewrite E. reflexivity. Qed.

Lemma outcome : forall st d junk,
  match add_sample st d junk with
  | Ok s => offer st d junk = (Some s, false)
  | _ => snd (offer st d junk) = true
  end.
Proof.
  intros st d junk. rewrite add_sample_eq, offer_eq. destruct (contribution d junk) as [x| | |]; cbn [bind snd]; auto.
  destruct st as [s|].
  - rewrite accumulate_x_some. destruct (accumulate (Some s) (shape_of d) x); reflexivity.
  - unfold accumulate_x, allocate_x. destruct (allocate (shape_of d)) as [s| | |] eqn:E.
    + rewrite (accumulate_alloc _ _ x E). destruct (accumulate (Some s) (shape_of d) x); reflexivity.
    + unfold accumulate. rewrite E. reflexivity.
    + unfold accumulate. rewrite E. reflexivity.
    + unfold accumulate. rewrite E. reflexivity.
Qed.

Lemma no_trace_some : forall s d junk, snd (offer (Some s) d junk) = true -> fst (offer (Some s) d junk) = Some s.
Proof.
  intros s d junk. rewrite offer_eq. destruct (contribution d junk) as [x| | |]; auto. rewrite accumulate_x_some.
  destruct (accumulate (Some s) (shape_of d) x); cbn; auto; discriminate.
Qed.

Lemma no_trace : forall st d junk, snd (offer st d junk) = true ->
  st <> None \/ usable (shape_of d) \/ ~ Forall (fun n => 1 <= n) (shape_of d) -> fst (offer st d junk) = st.
Proof.
  intros [s|] d junk H HG; [apply no_trace_some; exact H|]. destruct HG as [HG|HG]; [congruence|]. rewrite offer_eq in *.
  destruct (contribution_ok d junk) as [C1 C2]. destruct HG as [HU|HE]; [|rewrite (C2 HE); reflexivity].
  exfalso. destruct (C1 (proj1 HU)) as [x EX]. rewrite EX in H.
  destruct (proj1 (allocate_ok d (proj1 HU)) HU) as (s & ES & E1 & _). unfold accumulate_x, allocate_x in H. rewrite ES in H.
  rewrite accumulate_some in H by exact E1. discriminate.
Qed.

Lemma offers_some : forall shape l s, usable shape -> st_shape s = shape ->
  add_samples (Some s) (filter (of_shape shape) l) = Ok (offers (Some s) l).
Proof.
  intros shape l. induction l as [|[d junk] l IH]; intros s HU HS; [reflexivity|]. unfold offers. cbn [filter fold_left]. change (of_shape shape (d, junk)) with (shape_eqb (shape_of d) shape). cbn [fst snd].
  destruct (shape_eqb (shape_of d) shape) eqn:E.
  - apply shape_eqb_eq in E. unfold add_samples. cbn [foldM fst snd]. rewrite add_sample_eq, offer_eq.
    destruct (contribution_ok d junk) as [C1 _]. rewrite E in C1. destruct (C1 (proj1 HU)) as [x EX]. rewrite EX. cbn [bind].
    rewrite accumulate_x_some, E, accumulate_some by exact HS. cbn [bind fst]. apply IH; auto.
  - replace (fst (offer (Some s) d junk)) with (Some s); [apply IH; auto|]. symmetry. apply no_trace_some. rewrite offer_eq.
    destruct (contribution d junk) as [x| | |]; auto. rewrite accumulate_x_some. unfold accumulate. cbn [bind].
    destruct (shape_eqb (st_shape s) (shape_of d)) eqn:Q; [|reflexivity]. exfalso. apply shape_eqb_eq in Q.
    rewrite <- Q, HS in E. rewrite (proj2 (shape_eqb_eq _ _) eq_refl) in E. discriminate.
Qed.

Lemma history_given : forall shape s l, usable shape -> allocate shape = Ok s ->
  add_samples (Some s) (filter (of_shape shape) l) = Ok (offers (Some s) l).
Proof. intros shape s l HU HA. apply offers_some; [exact HU|]. apply (allocate_good _ _ HA). Qed.

Lemma history_first : forall x l, usable (shape_of (fst x)) ->
  add_samples None (filter (of_shape (shape_of (fst x))) (x :: l)) = Ok (offers None (x :: l)).
Proof.
  intros [d junk] l HU. cbn [fst] in *. destruct (proj1 (allocate_ok d (proj1 HU)) HU) as (s & ES & E1 & _).
  pose proof (offers_some (shape_of d) ((d, junk) :: l) s HU E1) as H. unfold offers in *. cbn [filter fold_left fst snd] in *.
  change (of_shape (shape_of d) (d, junk)) with (shape_eqb (shape_of d) (shape_of d)) in *. cbn [fst] in *. rewrite (proj2 (shape_eqb_eq _ _) eq_refl) in *. unfold add_samples in *. cbn [foldM fst snd] in *.
  rewrite add_sample_eq, offer_eq in *. destruct (proj1 (contribution_ok d junk) (proj1 HU)) as [x EX]. rewrite EX in *. cbn [bind] in *.
  rewrite (accumulate_alloc _ _ x ES). unfold accumulate_x at 1, allocate_x. rewrite ES. exact H.
Qed.

(** ** After a first sample that is refused *)

Lemma stuck_shape : forall l s, exists s', offers (Some s) l = Some s' /\ st_shape s' = st_shape s.
Proof.
  induction l as [|[d junk] l IH]; intros s; [exists s; auto|]. unfold offers. cbn [fold_left fst snd]. rewrite offer_eq.
  destruct (contribution d junk) as [x| | |]; cbn [fst]; try apply IH. rewrite accumulate_x_some. unfold accumulate. cbn [bind].
  destruct (shape_eqb (st_shape s) (shape_of d)); cbn [fst]; [|apply IH]. destruct (IH (mkstat (st_shape s) (fun i => match st_first s i with Some y => Some (y + x i)%R | None => None end) (st_norm s + 1))) as (s' & E & S). exists s'. split; [exact E|]. exact S.
Qed.

Lemma spoiled : forall d junk, Forall (fun n => 1 <= n) (shape_of d) -> ~ usable (shape_of d) ->
  snd (offer None d junk) = true /\
  (forall junk', snd (offer (fst (offer None d junk)) d junk') = false) /\
  forall l d' junk', usable (shape_of d') -> snd (offer (offers (fst (offer None d junk)) l) d' junk') = true.
Proof.
  intros d junk HP HU. destruct (proj1 (contribution_ok d junk) HP) as [x EX].
  assert (E : offer None d junk = (Some (base_allocate (shape_of d)), true)).
  { rewrite offer_eq, EX. unfold accumulate_x, allocate_x. rewrite (proj2 (allocate_ok d HP) HU). reflexivity. }
  rewrite E. cbn [fst snd]. split; [reflexivity|]. split.
  - intros junk'. rewrite offer_eq. destruct (proj1 (contribution_ok d junk') HP) as [y ->]. rewrite accumulate_x_some, accumulate_some by reflexivity. reflexivity.
  - intros l d' junk' HU'. destruct (stuck_shape l (base_allocate (shape_of d))) as (s' & -> & S). cbn [base_allocate st_shape] in S.
    rewrite offer_eq. destruct (contribution d' junk') as [y| | |]; auto. rewrite accumulate_x_some. unfold accumulate. cbn [bind].
    destruct (shape_eqb (st_shape s') (shape_of d')) eqn:Q; [|reflexivity]. exfalso. apply shape_eqb_eq in Q. apply HU. rewrite <- S, Q. exact HU'.
Qed.

Lemma offers_count : forall l s, Forall (fun n => 1 <= n) (st_shape s) ->
  exists s', offers (Some s) l = Some s' /\ st_shape s' = st_shape s /\ st_norm s' = st_norm s + lenZ (filter (of_shape (st_shape s)) l).
Proof.
  induction l as [|[d junk] l IH]; intros s HS; [exists s; split; [reflexivity|]; split; [reflexivity|]; cbn [filter]; unfold lenZ; cbn; lia|].
  unfold offers. cbn [fold_left fst snd filter]. change (of_shape (st_shape s) (d, junk)) with (shape_eqb (shape_of d) (st_shape s)). rewrite offer_eq.
  destruct (shape_eqb (shape_of d) (st_shape s)) eqn:Q.
  - apply shape_eqb_eq in Q. rewrite <- Q in HS. destruct (proj1 (contribution_ok d junk) HS) as [x ->]. rewrite accumulate_x_some, accumulate_some by auto. cbn [fst].
    rewrite Q in HS. destruct (IH (mkstat (st_shape s) (fun i => match st_first s i with Some y => Some (y + x i)%R | None => None end) (st_norm s + 1)) HS) as (s' & E & A & B).
    exists s'. split; [rewrite Q; exact E|]. split; [exact A|]. cbn [st_norm st_shape] in B. rewrite B. unfold lenZ. cbn [length]. lia.
  - assert (E : fst (match contribution d junk with Ok x => accumulate_x (Some s) (shape_of d) x | _ => (Some s, true) end) = Some s).
    { destruct (contribution d junk) as [x| | |]; auto. rewrite accumulate_x_some. unfold accumulate. cbn [bind].
      destruct (shape_eqb (st_shape s) (shape_of d)) eqn:Q'; [|reflexivity]. exfalso. apply shape_eqb_eq in Q'. rewrite Q' in Q. rewrite (proj2 (shape_eqb_eq _ _) eq_refl) in Q. discriminate. }
    rewrite E. apply IH. exact HS.
Qed.

Lemma spoiled_object : forall d junk, Forall (fun n => 1 <= n) (shape_of d) -> ~ usable (shape_of d) ->
  exists s, fst (offer None d junk) = Some s /\ st_shape s = shape_of d /\ st_norm s = 0 /\ (forall i, st_first s i = Some 0%R) /\
    forall l, exists s', offers (Some s) l = Some s' /\ st_shape s' = shape_of d /\ st_norm s' = lenZ (filter (of_shape (shape_of d)) l).
Proof.
  intros d junk HP HU. destruct (proj1 (contribution_ok d junk) HP) as [x EX]. exists (base_allocate (shape_of d)). split.
  { rewrite offer_eq, EX. unfold accumulate_x, allocate_x. rewrite (proj2 (allocate_ok d HP) HU). reflexivity. }
  do 3 (split; [reflexivity|]). intros l. apply (offers_count l (base_allocate (shape_of d))). exact HP.
Qed.

Lemma unusable_34 : ~ usable [3; 4].
Proof. intros [_ H]. specialize (H 3 4 (or_introl eq_refl) (or_intror (or_introl eq_refl))). discriminate. Qed.

Lemma usable_33 : usable [3; 3].
Proof. split; [repeat constructor; lia|]. intros a b [<-|[<-|[]]] [<-|[<-|[]]]; reflexivity. Qed.

Lemma trace_refuted : exists d d' junk, snd (offer None d junk) = true /\ snd (offer None d' junk) = false /\
  snd (offer (fst (offer None d junk)) d' junk) = true.
Proof.
  exists (Data2 3 4 (delta 0 0)), (Data2 3 3 (delta 0 0)), (fun _ _ => 0%R).
  assert (HP : Forall (fun n => 1 <= n) (shape_of (Data2 3 4 (delta 0 0)))) by (cbn; repeat constructor; lia).
  destruct (spoiled (Data2 3 4 (delta 0 0)) (fun _ _ => 0%R) HP unusable_34) as (A & _ & B). split; [exact A|]. split.
  - destruct (snd (offer None (Data2 3 3 (delta 0 0)) (fun _ _ => 0%R))) eqn:E; [|reflexivity]. exfalso.
    pose proof (outcome None (Data2 3 3 (delta 0 0)) (fun _ _ => 0%R)) as O.
    destruct (proj1 (accepted [3; 3] None [] None (Data2 3 3 (delta 0 0)) (fun _ _ => 0%R) (or_introl eq_refl) eq_refl)) as (st & ES & _); [split; [exact usable_33|discriminate]|].
    rewrite ES in O. rewrite O in E. discriminate.
  - apply (B []). exact usable_33.
Qed.
