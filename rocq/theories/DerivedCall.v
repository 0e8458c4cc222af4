(** * DerivedCall: proofs about Python calls with named arguments *)

From Coq Require Import ZArith List Bool String Lia Permutation.
From Verif Require Import Base Path Center Cluster Labels Ensemble EnsemblePy BindingsPy BindingsGeom BindingsCall SpecCall.
Import ListNotations.

(** The arguments [l] (with their names) and the defaults make up [args]. *)
Inductive covers : signature -> list (string * parg) -> list parg -> Prop :=
| cov_nil : covers [] [] []
| cov_given : forall n d x s l a, covers s l a -> covers ((n, d) :: s) ((n, x) :: l) (x :: a)
| cov_default : forall n x s l a, covers s l a -> covers ((n, Some x) :: s) l (x :: a).

Lemma by_name_In : forall n x kw, NoDup (map fst kw) -> In (n, x) kw -> by_name n kw = Some x.
Proof.
  intros n x kw. unfold by_name. induction kw as [|[m y] kw IH]; intros ND I; [destruct I|]. cbn [find fst]. inversion ND; subst.
  destruct (String.eqb m n) eqn:E.
  - apply String.eqb_eq in E. subst m. destruct I as [I|I]; [injection I as ->; reflexivity|]. exfalso. apply H1. apply (in_map fst) in I. exact I.
  - destruct I as [I|I]; [injection I as -> ->; rewrite String.eqb_refl in E; discriminate|]. apply IH; assumption.
Qed.
Lemma by_name_none : forall n kw, ~ In n (map fst kw) -> by_name n kw = None.
Proof.
  intros n kw. unfold by_name. induction kw as [|[m y] kw IH]; intros N; [reflexivity|]. cbn [find fst]. destruct (String.eqb m n) eqn:E.
  - apply String.eqb_eq in E. subst m. exfalso. apply N. left. reflexivity.
  - apply IH. intros H. apply N. right. exact H.
Qed.
Lemma by_name_some : forall n kw x, by_name n kw = Some x -> In (n, x) kw.
Proof.
  intros n kw x. unfold by_name. destruct (find _ kw) as [[m y]|] eqn:E; [|discriminate]. intros H. injection H as <-. apply find_some in E. destruct E as [E1 E2].
  apply String.eqb_eq in E2. cbn in *. subst. exact E1.
Qed.

Definition without (n : string) (kw : list (string * parg)) := filter (fun k => negb (String.eqb (fst k) n)) kw.

Lemma without_In : forall n kw k, In k (without n kw) <-> In k kw /\ fst k <> n.
Proof.
  intros. unfold without. rewrite filter_In, negb_true_iff. split; intros [A B]; split; auto.
  - apply String.eqb_neq in B. exact B.
  - apply String.eqb_neq. exact B.
Qed.
Lemma without_none : forall n kw, ~ In n (map fst kw) -> without n kw = kw.
Proof.
  intros n kw. induction kw as [|[m y] kw IH]; intros N; [reflexivity|]. unfold without in *. cbn [filter fst]. destruct (String.eqb m n) eqn:E.
  - apply String.eqb_eq in E. subst. exfalso. apply N. left. reflexivity.
  - cbn [negb]. f_equal. apply IH. intros H. apply N. right. exact H.
Qed.
Lemma without_perm : forall n kw kw', Permutation kw kw' -> Permutation (without n kw) (without n kw').
Proof.
  intros n kw kw' P. unfold without. induction P; cbn [filter]; auto.
  - destruct (negb _); auto.
  - destruct (negb (String.eqb (fst x) n)), (negb (String.eqb (fst y) n)); auto using perm_swap.
  - eapply perm_trans; eauto.
Qed.

Lemma covers_names : forall s l a, covers s l a -> incl (map fst l) (map fst s).
Proof. intros s l a H. induction H; cbn; intros z Hz; [exact Hz| |right; apply IHcovers; exact Hz]. destruct Hz as [<-|Hz]; [left; reflexivity|right; apply IHcovers; exact Hz]. Qed.
Lemma covers_nodup : forall s l a, covers s l a -> NoDup (map fst s) -> NoDup (map fst l).
Proof.
  intros s l a H. induction H; cbn; intros ND; [constructor| |].
  - inversion ND; subst. constructor; [|auto]. intros I. apply (covers_names _ _ _ H) in I. contradiction.
  - inversion ND; subst. auto.
Qed.

(** All arguments by name. *)
Lemma receive_names : forall s l a kw, covers s l a -> NoDup (map fst s) -> Permutation kw l -> receive s [] kw = Some a.
Proof.
  intros s l a kw H. revert kw. induction H; intros kw ND P.
  - apply Permutation_sym, Permutation_nil in P. subst. reflexivity.
  - inversion ND; subst. cbn [map fst] in *. pose proof (covers_nodup _ _ _ H H3) as NL.
    assert (NI : ~ In n (map fst l)) by (intros I; apply (covers_names _ _ _ H) in I; contradiction).
    assert (NK : NoDup (map fst kw)) by (apply Permutation_NoDup with (map fst ((n, x) :: l)); [apply Permutation_map, Permutation_sym; exact P|constructor; assumption]).
    cbn [receive fst snd]. rewrite (by_name_In n x kw NK) by (apply Permutation_in with (1 := Permutation_sym P); left; reflexivity).
    fold (without n kw). rewrite (IHcovers (without n kw)); [reflexivity|assumption|].
    apply perm_trans with (without n ((n, x) :: l)); [apply without_perm; exact P|]. unfold without. cbn [filter fst]. rewrite String.eqb_refl. cbn [negb].
    fold (without n l). rewrite without_none by exact NI. apply Permutation_refl.
  - inversion ND; subst. cbn [map fst] in *.
    assert (NI : ~ In n (map fst kw)).
    { intros I. apply H2. apply (covers_names _ _ _ H). apply Permutation_in with (map fst kw); [apply Permutation_map; exact P|exact I]. }
    cbn [receive fst snd]. rewrite by_name_none by exact NI. fold (without n kw). rewrite without_none by exact NI. rewrite (IHcovers kw); [reflexivity|assumption|exact P].
Qed.

(** The first ones by position. *)
Lemma receive_given : forall s l a pos kw k, covers s l a -> NoDup (map fst s) -> pos = map snd (firstn k l) -> Permutation kw (skipn k l) ->
  map fst (firstn k l) = map fst (firstn k s) -> receive s pos kw = Some a.
Proof.
  intros s l a pos kw k H. revert pos kw k. induction H; intros pos kw k ND EP P EN.
  - destruct k; cbn in *; subst pos; apply Permutation_sym, Permutation_nil in P; subst kw; reflexivity.
  - destruct k as [|k].
    + cbn in EP, P. subst pos. apply (receive_names _ ((n, x) :: l)); auto. constructor. exact H.
    + cbn in EP, P, EN. inversion ND; subst. cbn [receive]. injection EN as EN. rewrite (IHcovers (map snd (firstn k l)) kw k); auto.
  - destruct k as [|k].
    + cbn in EP, P. subst pos. apply (receive_names _ l); auto. constructor. exact H.
    + exfalso. cbn [firstn map fst] in EN. destruct l as [|[m y] l]; [discriminate|]. cbn in EN. injection EN as -> _. cbn [map fst] in ND. inversion ND; subst.
      apply H2. apply (covers_names _ _ _ H). left. reflexivity.
Qed.

Lemma nodup_without : forall n kw, NoDup (map fst kw) -> NoDup (map fst (without n kw)).
Proof.
  intros n kw. unfold without. induction kw as [|[m y] kw IH]; cbn; intros ND; [constructor|]. inversion ND; subst. destruct (negb (String.eqb m n)); cbn; [|auto].
  constructor; [|auto]. intros I. apply H1. apply in_map_iff in I. destruct I as (k & E & I). apply filter_In in I. destruct I as [I _]. rewrite <- E. apply in_map. exact I.
Qed.
Lemma without_split : forall n x kw, NoDup (map fst kw) -> In (n, x) kw -> Permutation kw ((n, x) :: without n kw).
Proof.
  intros n x kw. induction kw as [|[m y] kw IH]; intros ND I; [destruct I|]. inversion ND; subst. unfold without. cbn [filter fst]. destruct I as [I|I].
  - injection I as -> ->. rewrite String.eqb_refl. cbn [negb]. fold (without n kw). rewrite without_none by assumption. apply Permutation_refl.
  - assert (NE : m <> n) by (intros ->; apply H1; apply (in_map fst) in I; exact I). apply String.eqb_neq in NE. rewrite NE. cbn [negb]. fold (without n kw).
    apply perm_trans with ((m, y) :: (n, x) :: without n kw); [constructor; apply IH; assumption|apply perm_swap].
Qed.

(** What is received was given. *)
Lemma receive_sound_names : forall s kw a, receive s [] kw = Some a -> NoDup (map fst kw) -> exists l, covers s l a /\ Permutation kw l.
Proof.
  induction s as [|[n d] s IH]; intros kw a H ND.
  - cbn in H. destruct kw; [|discriminate]. injection H as <-. exists []. split; [constructor|apply Permutation_refl].
  - cbn [receive fst snd] in H. fold (without n kw) in H. destruct (by_name n kw) as [x|] eqn:E.
    + destruct (receive s [] (without n kw)) as [a'|] eqn:R; [|discriminate]. injection H as <-.
      destruct (IH _ _ R (nodup_without n kw ND)) as (l & C & P). exists ((n, x) :: l). split; [constructor; exact C|].
      apply perm_trans with (1 := without_split n x kw ND (by_name_some _ _ _ E)). constructor. exact P.
    + destruct d as [x|]; [|discriminate]. destruct (receive s [] (without n kw)) as [a'|] eqn:R; [|discriminate]. injection H as <-.
      assert (NI : ~ In n (map fst kw)).
      { intros I. apply in_map_iff in I. destruct I as ([m y] & E1 & I). cbn in E1. subst m. rewrite (by_name_In n y kw ND I) in E. discriminate. }
      rewrite without_none in R by exact NI. destruct (IH _ _ R ND) as (l & C & P). exists l. split; [constructor; exact C|exact P].
Qed.
Lemma receive_sound : forall s pos kw a, receive s pos kw = Some a -> NoDup (map fst kw) -> exists l, covers s l a /\ given l pos kw.
Proof.
  induction s as [|[n d] s IH]; intros pos kw a H ND.
  - destruct pos; [|discriminate]. destruct (receive_sound_names _ _ _ H ND) as (l & C & P). exists l. split; [exact C|]. exists 0%nat. split; [reflexivity|exact P].
  - destruct pos as [|x pos].
    + destruct (receive_sound_names _ _ _ H ND) as (l & C & P). exists l. split; [exact C|]. exists 0%nat. split; [reflexivity|exact P].
    + cbn [receive] in H. destruct (receive s pos kw) as [a'|] eqn:R; [|discriminate]. injection H as <-.
      destruct (IH _ _ _ R ND) as (l & C & (k & E & P)). exists ((n, x) :: l). split; [constructor; exact C|]. exists (S k). cbn. split; [congruence|exact P].
Qed.

Ltac names := repeat (constructor; [cbn; intuition discriminate|]); constructor.

(** A prefix of the parameters is given. *)
Lemma receive_prefix : forall s l a pos kw r, covers s l a -> NoDup (map fst s) -> map fst s = map fst l ++ r -> given l pos kw -> receive s pos kw = Some a.
Proof.
  intros s l a pos kw r C ND E (k & E1 & E2).
  assert (Q : forall j, (j <= List.length l)%nat -> map fst (firstn j l) = map fst (firstn j s)).
  { intros j L. rewrite <- !firstn_map, E, firstn_app, map_length. replace (j - List.length l)%nat with 0%nat by lia. rewrite firstn_O, app_nil_r. reflexivity. }
  destruct (Nat.le_gt_cases k (List.length l)) as [L|L].
  - apply (receive_given s l a pos kw k); auto.
  - apply (receive_given s l a pos kw (List.length l)); auto.
    + rewrite firstn_all. rewrite firstn_all2 in E1 by lia. exact E1.
    + rewrite skipn_all. rewrite skipn_all2 in E2 by lia. exact E2.
Qed.

Lemma given_count : forall l pos kw, given l pos kw -> (List.length pos + List.length kw = List.length l)%nat.
Proof.
  intros l pos kw (k & -> & P). rewrite map_length, (Permutation_length P). rewrite <- app_length, firstn_skipn. reflexivity.
Qed.
Lemma given_nodup : forall l pos kw, given l pos kw -> NoDup (map fst l) -> NoDup (map fst kw).
Proof.
  intros l pos kw (k & _ & P) ND. apply Permutation_NoDup with (map fst (skipn k l)); [apply Permutation_map, Permutation_sym; exact P|].
  rewrite <- (firstn_skipn k l), map_app in ND. clear P. induction (map fst (firstn k l)) as [|z t IH]; cbn in ND; [exact ND|]. inversion ND. auto.
Qed.
Lemma covers_length : forall s l a, covers s l a -> (List.length l <= List.length s)%nat.
Proof. intros s l a H. induction H; cbn; lia. Qed.

Lemma too_many : forall s l pos kw, given l pos kw -> NoDup (map fst l) -> (List.length s < List.length l)%nat -> receive s pos kw = None.
Proof.
  intros s l pos kw G ND L. destruct (receive s pos kw) as [a|] eqn:R; [|reflexivity]. exfalso.
  destruct (receive_sound s pos kw a R (given_nodup _ _ _ G ND)) as (l' & C & G'). apply covers_length in C. apply given_count in G. apply given_count in G'. lia.
Qed.

Ltac covered := repeat (first [apply cov_nil | apply cov_given | apply cov_default]).
Ltac called G rest :=
  unfold py_function, function_overloads; cbn [String.eqb Ascii.eqb Bool.eqb call_first fst snd];
  erewrite (fun C N E => receive_prefix _ _ _ _ _ rest C N E G); cycle 1; [covered|names|reflexivity|reflexivity].

Local Open Scope string_scope.

Section Calls.
Variables (asrt : bool) (fuel : nat) (pos : list parg) (kw : list (string * parg)).
Notation call f := (py_function asrt fuel f pos kw).

Lemma call_path : forall a b m,
  (given [("xa", PArray a); ("xb", PArray b)] pos kw -> call "path" = (x <- py_path fuel a b None ;; Ok (RIndices x))) /\
  (given [("xa", PArray a); ("xb", PArray b); ("mode", PMode m)] pos kw -> call "path" = (x <- py_path fuel a b (Some m) ;; Ok (RIndices x))).
Proof. intros a b m. split; intros G; [called G ["mode"]|called G (@nil string)]. Qed.

Lemma call_circles : forall s x y r p,
  (given [("shape", PShape s); ("row", PArray x); ("col", PArray y); ("r", PArray r)] pos kw ->
   call "dummy_circles" = (o <- py_dummy_circles asrt s x y r None ;; Ok (RImage o))) /\
  (given [("shape", PShape s); ("row", PArray x); ("col", PArray y); ("r", PArray r); ("periodic", PFlag p)] pos kw ->
   call "dummy_circles" = (o <- py_dummy_circles asrt s x y r (Some p) ;; Ok (RImage o))).
Proof. intros s x y r p. split; intros G; [called G ["periodic"]|called G (@nil string)]. Qed.

Lemma call_clusters : forall f p,
  (given [("f", PArray f)] pos kw -> call "clusters" = (o <- py_clusters asrt f true ;; Ok (RImage o))) /\
  (given [("f", PArray f); ("periodic", PFlag p)] pos kw -> call "clusters" = (o <- py_clusters asrt f p ;; Ok (RImage o))).
Proof. intros f p. split; intros G; [called G ["periodic"]|called G (@nil string)]. Qed.

Lemma call_labels : forall l x,
  (given [("a", PArray l); ("b", PArray x)] pos kw -> call "labels_map" = (o <- py_labels_map l x ;; Ok (RMap o))) /\
  (given [("labels", PArray l); ("rename", PArray x)] pos kw -> call "labels_rename" = (o <- py_labels_rename asrt l x ;; Ok (RImage o))) /\
  (given [("labels", PArray l)] pos kw -> call "labels_prune" = (o <- py_labels_prune asrt l ;; Ok (RImage o))) /\
  (given [("labels", PArray l); ("order", PArray x)] pos kw -> call "labels_reorder" = (o <- py_labels_reorder asrt l x ;; Ok (RImage o))) /\
  (given [("labels", PArray l)] pos kw -> call "labels_sizes" = (o <- py_labels_sizes l ;; Ok (RMap o))) /\
  (given [("labels", PArray l); ("names", PArray x)] pos kw -> call "labels_sizes" = (o <- py_labels_sizes_names l x ;; Ok (RImage o))).
Proof.
  intros l x. repeat split; intros G; try (called G (@nil string)).
  unfold py_function, function_overloads. cbn [String.eqb Ascii.eqb Bool.eqb call_first fst snd].
  rewrite (too_many [("labels", None)] _ pos kw G) by (first [names|cbn; lia]).
  erewrite (fun C N E => receive_prefix _ _ _ _ _ [] C N E G); cycle 1; [covered|names|reflexivity|reflexivity].
Qed.

Lemma call_center : forall s x p,
  (given [("shape", PArray s); ("positions", PArray x)] pos kw -> call "center" = (o <- py_center s x None ;; Ok (RCenter o))) /\
  (given [("shape", PArray s); ("positions", PArray x); ("periodic", PFlag p)] pos kw -> call "center" = (o <- py_center s x (Some p) ;; Ok (RCenter o))).
Proof. intros s x p. split; intros G; [called G ["periodic"]|called G (@nil string)]. Qed.

Lemma call_mass : forall s x w p,
  (given [("shape", PArray s); ("positions", PArray x); ("weights", PArray w)] pos kw ->
   call "center_of_mass" = (o <- py_center_of_mass s x w None ;; Ok (RCenter o))) /\
  (given [("shape", PArray s); ("positions", PArray x); ("weights", PArray w); ("periodic", PFlag p)] pos kw ->
   call "center_of_mass" = (o <- py_center_of_mass s x w (Some p) ;; Ok (RCenter o))).
Proof. intros s x w p. split; intros G; [called G ["periodic"]|called G (@nil string)]. Qed.

Lemma call_labels_centers : forall l n p,
  (given [("labels", PArray l); ("names", PArray n)] pos kw -> call "labels_centers" = (o <- py_labels_centers asrt l n None ;; Ok (RCenters o))) /\
  (given [("labels", PArray l); ("names", PArray n); ("periodic", PFlag p)] pos kw ->
   call "labels_centers" = (o <- py_labels_centers asrt l n (Some p) ;; Ok (RCenters o))).
Proof. intros l n p. split; intros G; [called G ["periodic"]|called G (@nil string)]. Qed.

Lemma call_labels_mass : forall l w n p,
  (given [("labels", PArray l); ("weights", PArray w); ("names", PArray n)] pos kw ->
   call "labels_centers_of_mass" = (o <- py_labels_centers_of_mass asrt l w n None ;; Ok (RCenters o))) /\
  (given [("labels", PArray l); ("weights", PArray w); ("names", PArray n); ("periodic", PFlag p)] pos kw ->
   call "labels_centers_of_mass" = (o <- py_labels_centers_of_mass asrt l w n (Some p) ;; Ok (RCenters o))).
Proof. intros l w n p. split; intros G; [called G ["periodic"]|called G (@nil string)]. Qed.

Lemma call_other : forall f, NoDup (map fst kw) -> (forall l, documented f (map fst l) -> ~ given l pos kw) -> call f = Throw.
Proof.
  intros f ND H. unfold py_function.
  assert (NR : forall s g, In (s, g) (function_overloads asrt fuel f) -> receive s pos kw = None).
  { intros s g I. destruct (receive s pos kw) as [a|] eqn:R; [|reflexivity]. exfalso.
    destruct (receive_sound s pos kw a R ND) as (l & C & G). apply (H l); [|exact G]. clear H R G ND.
    unfold function_overloads in I.
    repeat match type of I with
    | In _ (if String.eqb f ?n then _ else _) =>
        let E := fresh "E" in destruct (String.eqb f n) eqn:E; [apply String.eqb_eq in E; subst f|]
    end;
    cbn [In] in I; repeat (destruct I as [I|I]; [injection I as <- _|]); try contradiction;
    repeat match goal with
    | C : covers (_ :: _) _ _ |- _ => inversion C; clear C; subst
    | C : covers [] _ _ |- _ => inversion C; clear C; subst
    end; unfold documented; cbn [map fst In]; tauto. }
  induction (function_overloads asrt fuel f) as [|[s g] os IH]; [reflexivity|]. cbn [call_first fst snd]. rewrite (NR s g) by (left; reflexivity).
  apply IH. intros s' g' I. apply (NR s' g'). right. exact I.
Qed.
End Calls.

(** Keywords in another order. *)
Example case_given : forall a b c, given [("labels", PArray a); ("weights", PArray b); ("names", PArray c); ("periodic", PFlag false)]
  [PArray a] [("periodic", PFlag false); ("names", PArray c); ("weights", PArray b)].
Proof.
  intros. exists 1%nat. split; [reflexivity|]. cbn.
  apply perm_trans with [("names", PArray c); ("periodic", PFlag false); ("weights", PArray b)]; [apply perm_swap|].
  apply perm_trans with [("names", PArray c); ("weights", PArray b); ("periodic", PFlag false)]; [constructor; apply perm_swap|apply perm_swap].
Qed.

(** An argument given twice. *)
Example case_twice : forall a b, ~ exists l, documented "labels_centers" (map fst l) /\ given l [PArray a; PArray b] [("labels", PArray a)].
Proof.
  intros a b (l & D & G). assert (N : NoDup (map fst l) /\ (exists t, map fst l = "labels" :: "names" :: t)).
  { unfold documented in D. cbn [In] in D.
    repeat (destruct D as [D|D]; [try (exfalso; inversion D; fail)|]).
    all: try contradiction; apply (f_equal snd) in D; cbn [snd] in D; rewrite <- D; (split; [names|eexists; reflexivity]). }
  destruct N as [ND (t & E)]. destruct G as (k & E1 & P). destruct l as [|[n1 x1] [|[n2 x2] l]]; try discriminate. cbn in E. injection E as -> -> _.
  destruct k as [|[|k]]; try discriminate. cbn in E1. destruct k as [|k]; [|destruct l; [|discriminate]].
  - cbn in P. cbn in ND. inversion ND; subst. apply H1. right. change "labels" with (fst ("labels", PArray a)). apply in_map. apply Permutation_in with (1 := P). left. reflexivity.
  - cbn in P. apply Permutation_sym, Permutation_nil in P. discriminate.
Qed.
