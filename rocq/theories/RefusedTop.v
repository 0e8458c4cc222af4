(** * RefusedTop: proofs about [Refused.v] (C116) *)

From Coq Require Import ZArith QArith Qcanon List Bool Lia.
From Verif Require Import Base Array3 Path Cluster Ensemble EnsemblePy BindingsPy SpecEnsemble Refused SpecRefused.
Import ListNotations.
Open Scope Z_scope.

(** ** Code that does not throw *)

Definition quiet {A} (r : res A) : Prop := r <> Throw.

Lemma quiet_bind : forall {A B} (r : res A) (f : A -> res B), quiet r -> (forall a, quiet (f a)) -> quiet (bind r f).
Proof. intros A B [a| | |] f H K; cbn; [apply K|contradiction (H eq_refl)|discriminate|discriminate]. Qed.

Lemma quiet_foldM : forall {A S} (f : S -> A -> res S) l s, (forall s a, quiet (f s a)) -> quiet (foldM f l s).
Proof. intros A S f l. induction l as [|a t IH]; intros s H; cbn; [discriminate|]. apply quiet_bind; [apply H|]. intros s'. apply IH. exact H. Qed.

Lemma quiet_mapM : forall {A B} (f : A -> res B) l, (forall a, quiet (f a)) -> quiet (mapM f l).
Proof. intros A B f l H. induction l as [|a t IH]; cbn; [discriminate|]. apply quiet_bind; [apply H|]. intros b. apply quiet_bind; [exact IH|]. discriminate. Qed.

Lemma quiet_vget : forall {A} (l : list A) i, quiet (vget l i).
Proof. intros A l i. unfold vget. destruct (i <? 0); [discriminate|]. destruct (nth_error l (Z.to_nat i)); discriminate. Qed.
Lemma quiet_vset : forall {A} (l : list A) i v, quiet (vset l i v).
Proof. intros A l i v. unfold vset. destruct ((i <? 0) || (lenZ l <=? i)); discriminate. Qed.
Lemma quiet_aget : forall {A} (a : arr A) h i j, quiet (aget a h i j).
Proof. intros A a h i j. unfold aget. destruct (inb a h i j); [apply quiet_vget|discriminate]. Qed.

Ltac quiet_step :=
  match goal with
  | |- quiet (bind _ _) => apply quiet_bind; [|intros ?]
  | |- quiet (foldM _ _ _) => apply quiet_foldM; intros ? ?
  | |- quiet (mapM _ _) => apply quiet_mapM; intros ?
  | |- quiet (vget _ _) => apply quiet_vget
  | |- quiet (vset _ _ _) => apply quiet_vset
  | |- quiet (aget _ _ _ _) => apply quiet_aget
  | |- quiet (Ok _) => discriminate
  | |- quiet UB => discriminate
  | |- quiet NoFuel => discriminate
  | |- quiet (match ?x with _ => _ end) => destruct x
  | |- quiet (let '(_, _) := ?x in _) => destruct x
  end.
Ltac calm := repeat quiet_step.

Lemma quiet_aget3 : forall {A} (a : arr A) x, quiet (aget3 a x).
Proof. intros A a [[h i] j]. apply quiet_aget. Qed.
Lemma quiet_window : forall {A} (z : A) P G x, quiet (window z P G x).
Proof. intros A z [[[? ?] [? ?]] [? ?]] G [[h i] j]. unfold window. calm. Qed.
Lemma quiet_roi_ok : forall e, quiet (roi_ok e).
Proof. intros e. unfold roi_ok. calm. Qed.
Lemma quiet_to3 : forall {A} (f : img A), quiet (to3 f).
Proof. intros A f. unfold to3, atleast_3d, shape3. calm. Qed.
Lemma quiet_pad_mode : forall {A} per (z : A) a P, quiet (pad_mode per z a P).
Proof. intros A per z a P. unfold pad_mode, pad_periodic. calm. Qed.
Lemma quiet_plus0 : forall a v, quiet (plus0 a v).
Proof. intros. unfold plus0. calm. Qed.

(** *** Paths *)
Lemma quiet_tget : forall l i, quiet (tget l i).
Proof. intros. unfold tget. calm. Qed.
Lemma quiet_i32 : forall z, quiet (i32 z).
Proof. intros. unfold i32. calm. Qed.
Lemma quiet_path : forall fuel a b mode, quiet (path fuel a b mode).
Proof.
  assert (BL : forall fuel nd xb j a s x d, quiet (bres_loop fuel nd xb j a s x d)).
  { induction fuel as [|f IH]; intros nd xb j a s x d; [discriminate|].
    cbn [bres_loop]. apply quiet_bind; [apply quiet_tget|]. intros b. destruct (get x j =? b); [discriminate|].
    destruct (bres_check (get a j) s (bres_check (get a j) s (x, d) (fst (others j))) (snd (others j))) as [x' d'].
    apply quiet_bind; [apply IH|]. discriminate. }
  assert (BA : forall xa xb i, quiet (bres_axis xa xb i)).
  { intros xa xb i. unfold bres_axis. destruct (i <? lenZ xa); [|discriminate].
    repeat (apply quiet_bind; [first [apply quiet_tget|apply quiet_i32]|intros ?]). discriminate. }
  assert (LI : forall xa xb i, quiet (line_init xa xb i)).
  { induction xa as [|p xa IH]; intros xb i; [discriminate|]. cbn [line_init]. unfold line_axis.
    apply quiet_bind; [apply quiet_bind; [apply quiet_tget|intros q; apply quiet_bind; [apply quiet_i32|discriminate]]|].
    intros d. apply quiet_bind; [apply IH|]. discriminate. }
  assert (LL : forall f fuel l, quiet (line_loop f fuel l)).
  { intros f. induction fuel as [|n IH]; intros l; [discriminate|]. cbn [line_loop]. destruct (tmin l); [|discriminate].
    cbv zeta. destruct (reached _); [discriminate|]. apply quiet_bind; [apply IH|]. discriminate. }
  assert (LN : forall f fuel a b, quiet (line f fuel a b)).
  { intros f fuel a b. unfold line. destruct (3 <? lenZ a); [discriminate|]. apply quiet_bind; [apply LI|]. intros l.
    apply quiet_bind; [apply LL|]. discriminate. }
  intros fuel a b [| |]; cbn [path]; [|apply LN|apply LN].
  unfold bresenham. destruct (3 <? lenZ a); [discriminate|].
  apply quiet_bind; [apply BA|intros i0]. apply quiet_bind; [apply BA|intros i1]. apply quiet_bind; [apply BA|intros i2].
  destruct i0 as [[? ?] ?], i1 as [[? ?] ?], i2 as [[? ?] ?]. cbv zeta. destruct (dominant _) as [j|]; [|discriminate].
  destruct (others j) as [p q]. apply BL.
Qed.

Lemma quiet_incr : forall m a b c v, quiet (incr m a b c v).
Proof. intros. unfold incr. calm. Qed.

Lemma quiet_L_stamp : forall P F size mode e s, quiet (L_stamp P F size mode e s).
Proof.
  intros P F size mode e s. unfold L_stamp. apply quiet_bind; [apply quiet_path|]. intros rows.
  apply quiet_bind.
  - apply quiet_foldM. intros first x. destruct x as [[h i] j]. destruct P as [[[p0 q0] [p1 q1]] [p2 q2]].
    revert first. induction rows as [|row rows IH]; intros first; [discriminate|]. cbn [L_walk].
    destruct row as [|dh [|di [|dj [|? ?]]]]; try discriminate.
    apply quiet_bind; [apply quiet_aget|]. intros v. destruct (v =? 0); [discriminate|]. apply quiet_bind; [apply quiet_incr|]. intros a. apply IH.
  - intros a. apply quiet_bind; [|discriminate]. apply quiet_foldM. intros n row. unfold L_norm.
    destruct P as [[[p0 q0] [p1 q1]] [p2 q2]]. destruct row as [|dh [|di [|dj [|? ?]]]]; try discriminate. apply quiet_incr.
Qed.

Lemma quiet_W2c_stamp : forall P C Ce Fm F mode e s, quiet (W2c_stamp P C Ce Fm F mode e s).
Proof.
  intros P C Ce Fm F mode e s. unfold W2c_stamp. apply quiet_bind; [apply quiet_path|]. intros rows.
  apply quiet_bind; [|discriminate]. apply quiet_foldM. intros fn x. unfold W2c_point.
  apply quiet_bind; [apply quiet_aget3|]. intros label. destruct (label =? 0); [discriminate|].
  apply quiet_bind; [apply quiet_aget3|]. intros c. destruct (negb (c =? label)); [discriminate|].
  assert (W : forall all rest q fn, quiet (W2c_walk P C Fm F label x all rest q fn)).
  { intros all. induction rest as [|row rest IH]; intros q fn0; [discriminate|]. cbn [W2c_walk].
    destruct row as [|dh [|di [|dj [|? ?]]]]; try discriminate.
    destruct x as [[h i] j]. destruct P as [[[p0 q0] [p1 q1]] [p2 q2]].
    apply quiet_bind; [apply quiet_aget|]. intros c0. cbv zeta. apply quiet_bind; [|intros; apply IH].
    destruct (0 <=? _); [|discriminate].
    apply quiet_bind; [apply quiet_aget|]. intros m. destruct (m =? 0); [|discriminate].
    apply quiet_bind; [apply quiet_vget|]. intros to. destruct to as [|th [|ti [|tj [|? ?]]]]; try discriminate.
    apply quiet_bind; [apply quiet_incr|]. intros n. apply quiet_bind; [apply quiet_aget|]. intros v.
    apply quiet_bind; [apply quiet_incr|]. discriminate. }
  apply W.
Qed.

(** *** The labeller *)
Lemma quiet_get_compare : forall g idx d, quiet (get_compare g idx d).
Proof. intros. unfold get_compare. calm. Qed.

Lemma quiet_label_impl : forall g s idx, quiet (label_impl g s idx).
Proof.
  intros g s idx.
  assert (SL : forall s i v, quiet (set_label s i v)) by (intros; unfold set_label; calm).
  assert (RL : forall fuel next renum i t, quiet (relabel fuel next renum i t)).
  { induction fuel as [|f IH]; intros; [discriminate|]. cbn [relabel]. apply quiet_bind; [apply quiet_vget|]. intros i'.
    destruct (i' =? -1); [discriminate|]. apply quiet_bind; [apply quiet_vset|]. intros. apply IH. }
  assert (LE : forall fuel next a, quiet (list_end fuel next a)).
  { induction fuel as [|f IH]; intros; [discriminate|]. cbn [list_end]. apply quiet_bind; [apply quiet_vget|]. intros a'.
    destruct (a' =? -1); [discriminate|]. apply IH. }
  assert (MD : forall s a b, quiet (merge_detail s a b)).
  { intros. unfold merge_detail. repeat (apply quiet_bind; [first [apply quiet_vget|apply quiet_vset|apply RL|apply LE]|intros ?]). discriminate. }
  assert (MG : forall s l, quiet (merge s l)).
  { intros s0 [|t l]; [discriminate|]. cbn [merge]. apply quiet_bind; [|discriminate]. apply quiet_foldM. intros. apply MD. }
  assert (M : forall u, quiet (st' <- merge s u ;; (let (s1, t) := st' in
    s2 <- set_label s1 idx t ;; Ok (mkst (c_label s2) (c_new s2) (c_nmerge s2 + 1) (c_renum s2) (c_next s2))))).
  { intros u. apply quiet_bind; [apply MG|]. intros [s1 t]. apply quiet_bind; [apply SL|]. discriminate. }
  unfold label_impl. apply quiet_bind.
  - unfold connected_of. apply quiet_foldM. intros acc d. apply quiet_bind; [apply quiet_get_compare|]. intros c. calm.
  - intros conn. destruct conn as [|c [|c' conn]].
    + apply quiet_bind; [apply SL|]. discriminate.
    + apply SL.
    + destruct (unique (c :: c' :: conn)) as [|u [|u' l]]; [apply M|apply SL|apply M].
Qed.

Lemma quiet_apply_merge : forall s, quiet (apply_merge s).
Proof. intros. unfold apply_merge, private_renumber. calm. Qed.

Lemma quiet_prune : forall s, quiet (prune s).
Proof. intros. unfold prune, prune_loop, private_renumber, iota. calm. Qed.

Lemma quiet_seq_outer : forall fuel g s idx i ret, quiet (seq_outer fuel g s idx i ret).
Proof.
  assert (SI : forall g rest s nl nm lab i, quiet (seq_inner g s nl nm lab i rest)).
  { intros g. induction rest as [|p rest IH]; intros; [discriminate|]. cbn [seq_inner]. apply quiet_bind; [apply quiet_vget|]. intros l.
    destruct (negb (l =? lab) && negb (l =? 0)); [discriminate|]. destruct (negb (l =? 0)); [apply IH|].
    apply quiet_bind; [apply quiet_label_impl|]. intros s'. destruct (_ || _); [discriminate|]. apply IH. }
  induction fuel as [|f IH]; intros; [discriminate|]. cbn [seq_outer].
  apply quiet_bind; [apply quiet_vget|]. intros p. apply quiet_bind; [apply quiet_vget|]. intros lab. apply quiet_bind; [apply SI|].
  intros [[s' i'] pushed]. cbv zeta. destruct (i' =? lenZ idx); [discriminate|]. apply IH.
Qed.

(** ** Statements against functions *)

(** From object [s] the statements do what the function gives, and an exception leaves [s]. *)
Definition kept {S A} (m : act S A) (s : S) (r : res (S * A)) : Prop :=
  match r with
  | Ok (s', a) => m s = (s', Ok a)
  | Throw => m s = (s, Throw)
  | UB => snd (m s) = UB
  | NoFuel => snd (m s) = NoFuel
  end.
(** There is no exception. *)
Definition still {S A} (m : act S A) (s : S) (r : res (S * A)) : Prop := kept m s r /\ quiet r.

Lemma kept_check : forall {S A} asrt (c : S -> bool) (k : unit -> act S A) s b r, c s = b -> kept (k tt) s r ->
  kept (then_ (check asrt c) k) s (bind (assertb asrt b) (fun _ => r)).
Proof.
  intros S A asrt c k s b r <- H. unfold kept, then_, check, assertb in *. destruct asrt; [|exact H]. destruct (c s); cbn; [exact H|reflexivity].
Qed.

Lemma still_expr : forall {S A B} (r : res A) (k : A -> act S B) s q, quiet r -> (forall a, still (k a) s (q a)) ->
  still (then_ (expr r) k) s (bind r q).
Proof.
  intros S A B r k s q N H. unfold still, kept, then_, expr, quiet in *. destruct r as [a| | |]; cbn; [apply H|contradiction (N eq_refl)|split; [reflexivity|discriminate]|split; [reflexivity|discriminate]].
Qed.

Lemma still_then : forall {S A B} (m : act S A) (k : A -> act S B) s r q, still m s r -> (forall s' a, still (k a) s' (q (s', a))) ->
  still (then_ m k) s (bind r q).
Proof.
  intros S A B m k s r q [H N] K. unfold still, kept, quiet, then_ in *. destruct r as [[s' a]| | |]; cbn; [|contradiction (N eq_refl)| |].
  - rewrite H. destruct (K s' a) as [K1 K2]. split; [|exact K2]. destruct (q (s', a)) as [[s2 b]| | |]; [exact K1|contradiction (K2 eq_refl)|exact K1|exact K1].
  - destruct (m s) as [s1 r1]. cbn in H. subst r1. split; [reflexivity|discriminate].
  - destruct (m s) as [s1 r1]. cbn in H. subst r1. split; [reflexivity|discriminate].
Qed.

(** A function that gives the object only. *)
Definition void {S} (r : res S) : res (S * unit) := s <- r ;; Ok (s, tt).
Lemma quiet_void : forall {S} (r : res S), quiet r -> quiet (void r).
Proof. intros S [s| | |] H; [discriminate|exact (fun _ => H eq_refl)|discriminate|discriminate]. Qed.

Lemma void_bind : forall {A S} (r : res A) (q : A -> res S), void (bind r q) = bind r (fun a => void (q a)).
Proof. intros A S [a| | |] q; reflexivity. Qed.

Lemma still_code : forall {S} (f : S -> res S) s, quiet (f s) -> still (code f) s (void (f s)).
Proof. intros S f s N. split; [|apply quiet_void; exact N]. unfold kept, code, void. destruct (f s); reflexivity. Qed.

Lemma still_for : forall {S X} (body : X -> act S unit) (f : S -> X -> res S), (forall s x, still (body x) s (void (f s x))) ->
  forall l s, still (for_ body l) s (void (foldM f l s)).
Proof.
  intros S X body f H. induction l as [|x t IH]; intros s; cbn [for_ foldM].
  - split; [reflexivity|discriminate].
  - replace (void (s' <- f s x ;; foldM f t s')) with (bind (void (f s x)) (fun p => void (foldM f t (fst p)))) by (destruct (f s x); reflexivity).
    apply still_then; [apply H|]. intros s' a. apply IH.
Qed.

Lemma kept_still : forall {S A} (m : act S A) s r, still m s r -> kept m s r.
Proof. intros S A m s r [H _]. exact H. Qed.

(** ** [Ensemble] *)

Lemma kept_lock : forall {A} x (k : unit -> act ens A) e r, still (k tt) (set_stat e x) r -> kept (then_ (lock x) k) e r.
Proof.
  intros A x k e r [H N]. unfold kept, then_, lock, this_, assign, quiet in *. cbn in *. destruct r as [[s' a]| | |]; [exact H|contradiction (N eq_refl)|exact H|exact H].
Qed.

Lemma still_this : forall {S A} (k : S -> act S A) s r, still (k s) s r -> still (then_ this_ k) s r.
Proof. intros. exact H. Qed.

Ltac quiet_expr := first [apply quiet_roi_ok|apply quiet_to3|apply quiet_pad_mode|apply quiet_aget3|apply quiet_window|apply quiet_plus0].
Ltac checks := repeat (apply kept_check; [reflexivity|]).
Ltac exprs := repeat (apply still_expr; [quiet_expr|intros ?]).

Lemma void_check : forall {S} asrt b (q : unit -> res S), void (bind (assertb asrt b) q) = bind (assertb asrt b) (fun _ => void (q tt)).
Proof. intros S [|] [|] q; reflexivity. Qed.

Lemma kept_S2 : forall asrt f g fm gm e, kept (try_S2 asrt f g fm gm) e (void (S2 asrt e f g fm gm)).
Proof.
  intros. unfold try_S2, S2. rewrite !void_check. checks. apply kept_lock, still_this.
  cbn [e_first e_per e_pad set_stat]. change (roi_ok (set_stat e S_S2)) with (roi_ok e).
  rewrite void_bind. apply still_expr; [quiet_expr|intros _].
  cbv zeta. change (e_pad (set_stat e S_S2)) with (e_pad e).
  repeat (rewrite void_bind; apply still_expr; [quiet_expr|intros ?]).
  apply still_for. intros s x. unfold S2_point. rewrite void_bind. apply still_expr; [quiet_expr|intros m].
  destruct (negb (m =? 0)); [split; [reflexivity|discriminate]|].
  repeat (rewrite void_bind; apply still_expr; [quiet_expr|intros ?]). cbv zeta.
  destruct (Qceq_b _ _); split; try discriminate; reflexivity.
Qed.

Lemma kept_C2 : forall asrt f g fm gm e, kept (try_C2 asrt f g fm gm) e (void (C2 asrt e f g fm gm)).
Proof.
  intros. unfold try_C2, C2. rewrite !void_check. checks. apply kept_lock, still_this.
  cbn [e_first e_per e_pad set_stat]. change (roi_ok (set_stat e S_C2)) with (roi_ok e).
  rewrite void_bind. apply still_expr; [quiet_expr|intros _].
  cbv zeta. change (e_pad (set_stat e S_C2)) with (e_pad e).
  repeat (rewrite void_bind; apply still_expr; [quiet_expr|intros ?]).
  apply still_for. intros s x. unfold C2_point. rewrite void_bind. apply still_expr; [quiet_expr|intros m].
  destruct (negb (m =? 0)); [split; [reflexivity|discriminate]|].
  repeat (rewrite void_bind; apply still_expr; [quiet_expr|intros ?]). cbv zeta.
  match goal with |- still (then_ (if ?b then _ else _) _) _ _ => destruct b end; split; try discriminate; reflexivity.
Qed.

Lemma kept_W2 : forall asrt f g gm e, kept (try_W2 asrt f g gm) e (void (W2 asrt e f g gm)).
Proof.
  intros. unfold try_W2, W2. rewrite !void_check. checks. apply kept_lock, still_this.
  cbn [e_first e_per e_pad set_stat]. change (roi_ok (set_stat e S_W2)) with (roi_ok e).
  rewrite void_bind. apply still_expr; [quiet_expr|intros _].
  cbv zeta. change (e_pad (set_stat e S_W2)) with (e_pad e).
  repeat (rewrite void_bind; apply still_expr; [quiet_expr|intros ?]).
  apply still_for. intros s x. unfold W2_point.
  repeat (rewrite void_bind; apply still_expr; [quiet_expr|intros ?]). cbv zeta.
  destruct (Qceq_b _ _); split; try discriminate; reflexivity.
Qed.

Lemma kept_heightheight : forall asrt f fm e, kept (try_heightheight asrt f fm) e (void (heightheight asrt e f fm)).
Proof.
  intros. unfold try_heightheight, heightheight. rewrite !void_check. checks. apply kept_lock, still_this.
  cbn [e_first e_per e_pad set_stat]. change (roi_ok (set_stat e S_heightheight)) with (roi_ok e).
  rewrite void_bind. apply still_expr; [quiet_expr|intros _].
  cbv zeta. change (e_pad (set_stat e S_heightheight)) with (e_pad e).
  repeat (rewrite void_bind; apply still_expr; [quiet_expr|intros ?]).
  apply still_for. intros s x. unfold hh_point. rewrite void_bind. apply still_expr; [quiet_expr|intros m].
  destruct (negb (m =? 0)); [split; [reflexivity|discriminate]|].
  repeat (rewrite void_bind; apply still_expr; [quiet_expr|intros ?]). cbv zeta.
  destruct s as [s1 s2 [|] s4 s5 s6 s7]; split; try discriminate; reflexivity.
Qed.

Lemma still_three : forall v1 v2 v3 e x,
  still (_ <-- add_first0 v1 ;;; _ <-- add_second0 v2 ;;; add_norm0 v3) (set_stat e x)
    (void (a <- plus0 (e_first e) v1 ;; b <- plus0 (e_second e) v2 ;; c <- plus0 (e_norm e) v3 ;; Ok (set_data (set_stat e x) a b c))).
Proof.
  intros. unfold add_first0, add_second0, add_norm0.
  pose proof (quiet_plus0 (e_first e) v1) as N1. pose proof (quiet_plus0 (e_second e) v2) as N2. pose proof (quiet_plus0 (e_norm e) v3) as N3.
  unfold still, kept, then_, this_, expr, put_first, put_second, put_norm, assign, quiet in *. unfold then_, assign, this_.
  cbn [e_first e_second e_norm set_stat set_data].
  destruct (plus0 (e_first e) v1) as [a| | |]; [|contradiction (N1 eq_refl)|split; [reflexivity|discriminate]|split; [reflexivity|discriminate]].
  cbn [e_first e_second e_norm set_stat set_data bind].
  destruct (plus0 (e_second e) v2) as [b| | |]; [|contradiction (N2 eq_refl)|split; [reflexivity|discriminate]|split; [reflexivity|discriminate]].
  cbn [e_first e_second e_norm set_stat set_data bind].
  destruct (plus0 (e_norm e) v3) as [c| | |]; [|contradiction (N3 eq_refl)|split; [reflexivity|discriminate]|split; [reflexivity|discriminate]].
  split; [reflexivity|discriminate].
Qed.

Lemma kept_mean : forall asrt f e, kept (try_mean asrt f) e (void (mean asrt e f)).
Proof.
  intros. unfold try_mean, mean. rewrite !void_check. checks. apply kept_lock.
  apply still_three.
Qed.

Lemma shape_eqb_refl : forall l, shape_eqb l l = true.
Proof. induction l as [|x l IH]; [reflexivity|]. cbn. rewrite Z.eqb_refl. exact IH. Qed.

Lemma kept_mean_masked : forall asrt f m e, asrt = true \/ i_shape m = i_shape f -> kept (try_mean_masked asrt f m) e (void (mean_masked asrt e f m)).
Proof.
  intros asrt f m e HS.
  assert (D : shape_eqb (i_shape f) (i_shape m) = true \/ (asrt = true /\ shape_eqb (i_shape f) (i_shape m) = false)).
  { destruct HS as [->|E]; [destruct (shape_eqb (i_shape f) (i_shape m)); auto|left; rewrite E; apply shape_eqb_refl]. }
  unfold try_mean_masked, mean_masked, where_shape. destruct D as [D|[-> D]].
  2: { rewrite D. reflexivity. }
  rewrite !void_check. rewrite D. checks. apply kept_lock. cbv zeta. cbn [negb].
  apply still_three.
Qed.

Lemma kept_L : forall asrt f mode e, kept (try_L asrt f mode) e (void (L asrt e f mode)).
Proof.
  intros. unfold try_L, L. rewrite !void_check. checks. apply kept_lock, still_this.
  cbn [e_first e_per e_pad set_stat]. change (roi_ok (set_stat e S_L)) with (roi_ok e).
  rewrite void_bind. apply still_expr; [quiet_expr|intros _].
  cbv zeta. change (e_pad (set_stat e S_L)) with (e_pad e).
  repeat (rewrite void_bind; apply still_expr; [quiet_expr|intros ?]).
  apply still_for. intros s x. apply (still_code (fun e0 => L_stamp _ _ _ _ e0 x)). apply quiet_L_stamp.
Qed.

Lemma kept_W2c : forall asrt c ce f m mode e, kept (try_W2c asrt c ce f m mode) e (void (W2c asrt e c ce f m mode)).
Proof.
  intros. unfold try_W2c, W2c. rewrite !void_check. checks. apply kept_lock, still_this.
  cbn [e_first e_per e_pad set_stat]. change (roi_ok (set_stat e S_W2c)) with (roi_ok e).
  rewrite void_bind. apply still_expr; [quiet_expr|intros _].
  cbv zeta. change (e_pad (set_stat e S_W2c)) with (e_pad e).
  repeat (rewrite void_bind; apply still_expr; [quiet_expr|intros ?]).
  apply still_for. intros s x. apply (still_code (fun e0 => W2c_stamp _ _ _ _ _ _ e0 x)). apply quiet_W2c_stamp.
Qed.

Lemma kept_add : forall asrt c e, mask_fits asrt c -> kept (try_add asrt c) e (void (add asrt e c)).
Proof.
  intros asrt c e H. destruct c; cbn [try_add add].
  - apply kept_mean.
  - apply kept_mean_masked. exact H.
  - apply kept_S2.
  - apply kept_C2.
  - apply kept_W2.
  - apply kept_W2c.
  - apply kept_heightheight.
  - apply kept_L.
Qed.

Lemma ensemble_outcome : forall asrt c e, mask_fits asrt c ->
  match add asrt e c with
  | Ok e' => try_add asrt c e = (e', Ok tt)
  | Throw => try_add asrt c e = (e, Throw)
  | UB => snd (try_add asrt c e) = UB
  | NoFuel => snd (try_add asrt c e) = NoFuel
  end.
Proof. intros asrt c e H. pose proof (kept_add asrt c e H) as K. destruct (add asrt e c); exact K. Qed.

(** ** The labeller *)

Definition with_nil {S} (r : res S) : res (S * list Z) := s <- r ;; Ok (s, []).

Lemma kept_add_image : forall asrt g sh img s, kept (try_add_image asrt g sh img) s (void (add_image asrt g s sh img)).
Proof.
  intros. unfold try_add_image, add_image. rewrite void_check. checks. apply kept_still.
  match goal with |- still (then_ _ ?k) _ (void (bind ?r ?q)) =>
    replace (void (bind r q)) with (bind (void r) (fun p => void (q (fst p)))) by (destruct r; reflexivity) end.
  apply still_then.
  - apply (still_for _ (fun s0 idx => v <- vget img idx ;; if v =? 0 then Ok s0 else l <- vget (c_label s0) idx ;; if negb (l =? 0) then Ok s0 else label_impl g s0 idx)).
    intros s0 idx. rewrite void_bind. apply still_expr; [apply quiet_vget|]. intros v. destruct (v =? 0); [split; [reflexivity|discriminate]|].
    apply still_this. rewrite void_bind. apply still_expr; [apply quiet_vget|]. intros l. destruct (negb (l =? 0)); [split; [reflexivity|discriminate]|].
    apply (still_code (fun s1 => label_impl g s1 idx)). apply quiet_label_impl.
  - intros s' a. apply still_code. apply quiet_apply_merge.
Qed.

Lemma kept_add_points : forall asrt g idx s, kept (try_add_points asrt g idx) s (void (add_points asrt g s idx)).
Proof.
  intros. unfold try_add_points, add_points. rewrite void_check. checks. apply kept_still.
  match goal with |- still (then_ _ ?k) _ (void (bind ?r ?q)) =>
    replace (void (bind r q)) with (bind (void r) (fun p => void (q (fst p)))) by (destruct r; reflexivity) end.
  apply still_then.
  - apply (still_for _ (fun s0 i => l <- vget (c_label s0) i ;; if negb (l =? 0) then Ok s0 else label_impl g s0 i)).
    intros s0 idx0. apply still_this. rewrite void_bind. apply still_expr; [apply quiet_vget|]. intros l.
    destruct (negb (l =? 0)); [split; [reflexivity|discriminate]|].
    apply (still_code (fun s1 => label_impl g s1 idx0)). apply quiet_label_impl.
  - intros s' a. apply still_code. apply quiet_apply_merge.
Qed.

Lemma kept_add_sequence : forall asrt g idx s, kept (try_add_sequence asrt g idx) s (add_sequence asrt g s idx).
Proof.
  intros. unfold try_add_sequence, add_sequence.
  apply (kept_check asrt (fun _ => 1 <=? lenZ idx)); [reflexivity|]. apply (kept_check asrt (fun s0 => legal_points s0 idx)); [reflexivity|].
  pose proof (quiet_seq_outer (2 * length idx + 2) g s idx 0 []) as N.
  unfold kept, then_, this_, expr, assign, code, bind. destruct (seq_outer (2 * length idx + 2) g s idx 0 []) as [[s1 ret]| | |]; try reflexivity.
  - cbn [fst snd]. pose proof (quiet_apply_merge s1) as N1. destruct (apply_merge s1) as [s2| | |]; try reflexivity. contradiction (N1 eq_refl).
Qed.

Lemma kept_nil : forall {S} (m : act S unit) s (r : res S), kept m s (void r) ->
  kept (then_ m (fun _ => expr (Ok []))) s (s' <- r ;; Ok (s', @nil Z)).
Proof.
  intros S m s r H. unfold kept, then_, expr, void, bind in *. destruct r as [s'| | |].
  - rewrite H. reflexivity.
  - rewrite H. reflexivity.
  - destruct (m s) as [s1 r1]. cbn in H. subst r1. reflexivity.
  - destruct (m s) as [s1 r1]. cbn in H. subst r1. reflexivity.
Qed.

Lemma kept_step : forall asrt g o s, kept (try_step asrt g o) s (step asrt g s o).
Proof.
  intros asrt g o s. destruct o as [sh img|idx|idx| |]; cbn [try_step step].
  - apply kept_nil, kept_add_image.
  - apply kept_nil, kept_add_points.
  - apply kept_add_sequence.
  - apply kept_nil. apply kept_still, still_code, quiet_prune.
  - reflexivity.
Qed.

Lemma kept_py_step : forall asrt g o s, kept (try_py_step asrt g o) s (py_step asrt g s o).
Proof.
  intros asrt g o s. unfold try_py_step, py_step, then_, expr, bind. destruct (py_load_op g o) as [o'| | |]; try reflexivity. apply kept_step.
Qed.

Lemma labeller_outcome : forall asrt g o s,
  match step asrt g s o with
  | Ok (s', out) => try_step asrt g o s = (s', Ok out)
  | Throw => try_step asrt g o s = (s, Throw)
  | UB => snd (try_step asrt g o s) = UB
  | NoFuel => snd (try_step asrt g o s) = NoFuel
  end.
Proof. exact kept_step. Qed.

(** ** Sessions *)

Lemma session_run : forall {S C B} (m : C -> act S B) (f : S -> C -> res (S * B)) (P : C -> Prop),
  (forall c s, P c -> kept (m c) s (f s c)) ->
  forall cs s t o, Forall P cs -> session m cs s = Some (t, o) ->
  (fix go (cs : list C) (s : S) : res (S * list B) :=
     match cs with [] => Ok (s, []) | c :: r => p <- f s c ;; q <- go r (fst p) ;; Ok (fst q, snd p :: snd q) end) (accepted cs o) s
  = Ok (t, returned o).
Proof.
  intros S C B m f P HK. induction cs as [|c cs IH]; intros s t o HP HS; cbn [session] in HS.
  - injection HS as <- <-. reflexivity.
  - apply Forall_cons_iff in HP. destruct HP as [Pc HP]. specialize (HK c s Pc). unfold kept in HK.
    destruct (f s c) as [[s' b]| | |] eqn:E.
    + rewrite HK in HS. destruct (session m cs s') as [[t' o']|] eqn:F; [|discriminate]. injection HS as <- <-.
      cbn [accepted returned]. rewrite E. cbn [bind fst snd]. rewrite (IH s' t' o' HP F). reflexivity.
    + rewrite HK in HS. destruct (session m cs s) as [[t' o']|] eqn:F; [|discriminate]. injection HS as <- <-.
      cbn [accepted returned]. apply (IH s t' o' HP F).
    + destruct (m c s) as [s1 r1]. cbn in HK. subst r1. discriminate.
    + destruct (m c s) as [s1 r1]. cbn in HK. subst r1. discriminate.
Qed.

Lemma ensemble_session : forall asrt cs e t o, Forall (mask_fits asrt) cs ->
  session (try_add asrt) cs e = Some (t, o) -> run asrt (accepted cs o) e = Ok t.
Proof.
  intros asrt cs e t o HP HS. pose proof (session_run _ _ _ (fun c s H => kept_add asrt c s H) cs e t o HP HS) as G. clear HS HP.
  unfold run. revert e G. generalize (accepted cs o) as l. generalize (returned o) as b. intros b l. revert b.
  induction l as [|c l IH]; intros b e G; cbn [foldM].
  - injection G as <- _. reflexivity.
  - unfold void in G. destruct (add asrt e c) as [e'| | |]; try discriminate. cbn [bind fst snd] in *.
    match type of G with context [match ?r with _ => _ end] => idtac | _ => idtac end.
    destruct ((fix go (cs0 : list call) (s : ens) : res (ens * list unit) :=
      match cs0 with [] => Ok (s, []) | c0 :: r => p <- (s0 <- add asrt s c0 ;; Ok (s0, tt)) ;; q <- go r (fst p) ;; Ok (fst q, snd p :: snd q) end) l e') as [[t' b']| | |] eqn:F; try discriminate.
    injection G as -> _. exact (IH b' e' F).
Qed.

Lemma labeller_session : forall asrt g ops s t o,
  session (try_step asrt g) ops s = Some (t, o) -> run_from asrt g s (accepted ops o) = Ok (t, returned o).
Proof.
  intros asrt g ops s t o HS.
  pose proof (session_run _ _ (fun _ => True) (fun c s _ => kept_step asrt g c s) ops s t o ltac:(apply Forall_forall; auto) HS) as G. rewrite <- G. clear.
  revert s. generalize (accepted ops o) as l. induction l as [|c l IH]; intros s; [reflexivity|]. cbn [run_from].
  destruct (step asrt g s c) as [[s' b]| | |]; try reflexivity. cbn [bind fst snd]. rewrite IH.
  match goal with |- bind ?x _ = bind ?x _ => destruct x as [[? ?]| | |]; reflexivity end.
Qed.

Lemma py_labeller_session : forall asrt g ops s t o,
  session (try_py_step asrt g) ops s = Some (t, o) -> py_run_from asrt g s (accepted ops o) = Ok (t, returned o).
Proof.
  intros asrt g ops s t o HS.
  pose proof (session_run _ _ (fun _ => True) (fun c s _ => kept_py_step asrt g c s) ops s t o ltac:(apply Forall_forall; auto) HS) as G. rewrite <- G. clear.
  revert s. generalize (accepted ops o) as l. induction l as [|c l IH]; intros s; [reflexivity|]. cbn [py_run_from].
  destruct (py_step asrt g s c) as [[s' b]| | |]; try reflexivity. cbn [bind fst snd]. rewrite IH.
  match goal with |- bind ?x _ = bind ?x _ => destruct x as [[? ?]| | |]; reflexivity end.
Qed.

(** Without assertions, a mask of [mean] of another shape. *)
Lemma trace : exists f m e, ensemble false [1] false true = Ok e /\ i_shape f = [2] /\ i_shape m = [3] /\
  variance e = Throw /\ variance (fst (try_add false (MeanMasked f m) e)) <> Throw /\ snd (try_add false (MeanMasked f m) e) = Throw.
Proof.
  eexists (mkimg [2] [1%Qc; 1%Qc]), (mkimg [3] [0; 0; 0]), _. split; [reflexivity|].
  split; [reflexivity|]. split; [reflexivity|]. split; [reflexivity|]. split; [cbn; discriminate|reflexivity].
Qed.

(** A refused [mean] takes the root off the result of [heightheight]. *)
Lemma trace_result : exists f g m e0 e, ensemble false [3] false true = Ok e0 /\ add false e0 (CallHH f None) = Ok e /\
  snd (try_add false (MeanMasked g m) e) = Throw /\ nth 0 (result e) NaN = Root (zq 4) /\
  nth 0 (result (fst (try_add false (MeanMasked g m) e))) NaN = Exact (zq 4).
Proof.
  eexists (mkimg [3] [zq 0; zq 2; zq 4]), (mkimg [2] [1%Qc; 1%Qc]), (mkimg [3] [0; 0; 0]), _, _.
  split; [reflexivity|]. split; [reflexivity|]. split; [vm_compute; reflexivity|].
  split; (vm_compute; match goal with |- ?c ?a = ?c ?b => apply f_equal end; apply Qc_is_canon; vm_compute; reflexivity).
Qed.

(** Without assertions the lock is not looked at. *)
Lemma add_forgets : forall e x c, add false (set_stat e x) c = add false e c.
Proof. intros e x c. destruct c; reflexivity. Qed.

Lemma mean_masked_off : forall f m e, exists x,
  match add false e (MeanMasked f m) with
  | Ok e' => try_add false (MeanMasked f m) e = (e', Ok tt)
  | Throw => False
  | _ => snd (try_add false (MeanMasked f m) e) = Throw /\ fst (try_add false (MeanMasked f m) e) = set_stat e x \/
         snd (try_add false (MeanMasked f m) e) = UB \/ snd (try_add false (MeanMasked f m) e) = NoFuel
  end.
Proof.
  intros f m e. destruct (shape_eqb (i_shape f) (i_shape m)) eqn:D.
  - exists S_mean. assert (E : i_shape m = i_shape f).
    { clear e. revert D. generalize (i_shape m) as b, (i_shape f) as a. intros b a. revert b. induction a as [|y a IH]; intros [|z b] D; try discriminate; [reflexivity|].
      cbn in D. apply andb_prop in D. destruct D as [D1 D2]. apply Z.eqb_eq in D1. rewrite (IH _ D2), D1. reflexivity. }
    pose proof (ensemble_outcome false (MeanMasked f m) e (or_intror E)) as K.
    destruct (add false e (MeanMasked f m)) eqn:A; auto.
    cbn [add] in A. unfold mean_masked in A. rewrite D in A. cbn [assertb bind negb] in A.
    pose proof (still_three (qsum (map (fun x => if snd x =? 0 then fst x else 0%Qc) (combine (i_vals f) (i_vals m))))
      (qsum (map (fun x => if snd x =? 0 then (fst x * fst x)%Qc else 0%Qc) (combine (i_vals f) (i_vals m))))
      (zq (zsum (map (fun m0 => 1 - m0) (i_vals m)))) e S_mean) as [_ N]. cbv zeta in A. rewrite A in N. exact (N eq_refl).
  - exists S_mean. cbn [add]. unfold mean_masked. rewrite D. cbn [assertb bind negb].
    cbn [try_add]. unfold try_mean_masked, where_shape. rewrite D. unfold then_, check, lock, this_, assign, expr, assertb. cbn.
    destruct (broadcastable (i_shape f) (i_shape m)); [right; left; reflexivity|left; split; reflexivity].
Qed.

Lemma averages_session : forall asrt cs e t o, session (try_add asrt) cs e = Some (t, o) ->
  exists t', run asrt (accepted cs o) e = Ok t' /\ data_first t = data_first t' /\ data_second t = data_second t' /\ norm t = norm t'.
Proof.
  intros asrt cs e t o HS. destruct asrt.
  { exists t. split; [|auto]. apply (ensemble_session true cs e t o); [|exact HS]. apply Forall_forall. intros [] _; cbn; auto. }
  assert (G : forall cs e t o, session (try_add false) cs e = Some (t, o) -> exists x t', run false (accepted cs o) e = Ok t' /\ t = set_stat t' x).
  { clear. induction cs as [|c cs IH]; intros e t o HS; cbn [session] in HS.
    - injection HS as <- <-. exists (e_stat e), e. split; [reflexivity|]. destruct e; reflexivity.
    - assert (K : exists e1 x, match add false e c with
        | Ok e' => try_add false c e = (e', Ok tt)
        | _ => (snd (try_add false c e) = Throw /\ try_add false c e = (e1, Throw) /\ e1 = set_stat e x) \/
               snd (try_add false c e) = UB \/ snd (try_add false c e) = NoFuel end).
      { destruct c; try (match goal with |- context [add false e ?c] => pose proof (ensemble_outcome false c e I) as K end;
          exists e, (e_stat e); destruct (add false e _); auto; left; split; [rewrite K; reflexivity|]; split; [exact K|destruct e; reflexivity]).
        destruct (mean_masked_off f fmask e) as (x & K). exists (fst (try_add false (MeanMasked f fmask) e)), x.
        destruct (add false e (MeanMasked f fmask)); [exact K|contradiction| |];
          (destruct K as [[K1 K2]|[K|K]]; [left; split; [exact K1|split; [|exact K2]]; rewrite <- K1; apply surjective_pairing|right; left; exact K|right; right; exact K]). }
      destruct K as (e1 & x & K).
      destruct (add false e c) as [e'| | |] eqn:A.
      { rewrite K in HS. destruct (session (try_add false) cs e') as [[t' o']|] eqn:F; [|discriminate]. injection HS as <- <-.
        destruct (IH e' t' o' F) as (y & t1 & R1 & R2). exists y, t1. split; [|exact R2]. cbn [accepted]. unfold run in *. cbn [foldM]. rewrite A. exact R1. }
      all: (destruct K as [(K1 & K2 & ->)|[K|K]];
        [rewrite K2 in HS; destruct (session (try_add false) cs (set_stat e x)) as [[t' o']|] eqn:F; [|discriminate]; injection HS as <- <-;
         destruct (IH _ _ _ F) as (y & t1 & R1 & R2); cbn [accepted]; unfold run in *;
         destruct (accepted cs o') as [|c' l];
         [cbn [foldM] in R1; injection R1 as <-; exists y, e; split; [reflexivity|rewrite R2; reflexivity]
         |exists y, t1; split; [|exact R2]; cbn [foldM] in *; rewrite add_forgets in R1; exact R1]
        |destruct (try_add false c e) as [s1 r1]; cbn in K; subst r1; discriminate
        |destruct (try_add false c e) as [s1 r1]; cbn in K; subst r1; discriminate]). }
  destruct (G cs e t o HS) as (x & t' & R1 & ->). exists t'. split; [exact R1|]. split; [reflexivity|]. split; reflexivity.
Qed.

(** Python *)
Lemma load_shape : forall p a x, load p a = Ok x -> match x with AInt i => i_shape i = a_shape a | ADouble i => i_shape i = a_shape a end.
Proof.
  intros [|] a x H; cbn [load] in H; [destruct (forallb _ _); [|discriminate]|]; injection H as <-; reflexivity.
Qed.

Lemma py_fits_call : forall asrt m args mode c, py_mask_fits asrt (m, args, mode) -> py_call m args mode = Ok c -> mask_fits asrt c.
Proof.
  intros asrt m args mode c H E. destruct c as [| f fm | | | | | | ]; try exact I. cbn [mask_fits].
  assert (EN : exists o, In o (overloads m mode) /\ enter o args = Ok (MeanMasked f fm)).
  { unfold py_call, dispatch in E. destruct (find _ (overloads m mode)) as [o|] eqn:F.
    - exists o. split; [exact (proj1 (find_some _ _ F))|exact E].
    - clear F. destruct (find _ (overloads m mode)) as [o|] eqn:F; [|discriminate]. exists o. split; [exact (proj1 (find_some _ _ F))|exact E]. }
  destruct EN as (o & I & EN). clear E. unfold enter in EN. destruct (load_all (o_params o) args) as [l| | |] eqn:LA; try discriminate. cbn [bind] in EN.
  assert (M : m = M_mean /\ o_params o = [PDouble; PInt] /\ l = [ADouble f; AInt fm]).
  { destruct m; cbn [overloads In] in I; repeat (destruct I as [<-|I]; [cbn [o_call] in EN;
      repeat (match type of EN with match ?x with _ => _ end = _ => destruct x as [|[?|?] ?] eqn:?; subst; try discriminate EN end);
      try discriminate EN; try (injection EN as -> ->; auto)|]); try contradiction. }
  destruct M as (-> & P & ->). rewrite P in LA. cbn [py_mask_fits] in H. destruct H as [H|H]; [left; exact H|right].
  destruct args as [|a [|b args]]; cbn [load_all] in LA; try discriminate LA.
  destruct (load PDouble a) as [x| | |] eqn:LX; try discriminate. cbn [bind] in LA. destruct (load PInt b) as [y| | |] eqn:LY; try discriminate. cbn [bind] in LA.
  destruct args; cbn [load_all bind] in LA; injection LA as -> ->; pose proof (load_shape _ _ _ LX) as SX; pose proof (load_shape _ _ _ LY) as SY; cbn in SX, SY;
    rewrite SX, SY; apply H; cbn; auto.
Qed.

Lemma py_ensemble_session : forall asrt cs e t o, Forall (py_mask_fits asrt) cs ->
  session (try_py_add asrt) cs e = Some (t, o) ->
  foldM (fun e c => let '(m, args, mode) := c in py_add asrt e m args mode) (accepted cs o) e = Ok t.
Proof.
  intros asrt cs e t o HP HS.
  assert (K : forall c s, py_mask_fits asrt c -> kept (try_py_add asrt c) s (void (let '(m, args, mode) := c in py_add asrt s m args mode))).
  { intros [[m args] mode] s H. unfold try_py_add, py_add, then_, expr, bind. destruct (py_call m args mode) as [c'| | |] eqn:PC; try reflexivity.
    apply kept_add. exact (py_fits_call _ _ _ _ _ H PC). }
  pose proof (session_run _ _ _ K cs e t o HP HS) as G. clear HS HP K.
  revert e G. generalize (accepted cs o) as l. generalize (returned o) as b. intros b l. revert b.
  induction l as [|c l IH]; intros b e G; cbn [foldM].
  - injection G as <- _. reflexivity.
  - unfold void in G. destruct (let '(m, args, mode) := c in py_add asrt e m args mode) as [e'| | |]; try discriminate. cbn [bind fst snd] in *.
    match type of G with bind ?r _ = _ => destruct r as [[t' b']| | |] eqn:F; try discriminate end.
    injection G as -> _. exact (IH b' e' F).
Qed.
