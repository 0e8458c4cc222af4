(** * EnsembleMachineProofs: the paths of the machine are the exact ones *)

From Coq Require Import ZArith QArith Qcanon List Bool Lia Reals.
From Verif Require Import Base BaseLemmas Array3 Array3Lemmas Path SpecPath SpecPathEnd PathProofs Double Ensemble SpecEnsemble EnsembleFloat SpecDouble DoubleProofs
  EnsembleFloatProofs EnsembleFloatTop IntArith SpecInt IntProofs PathMachine EnsembleMachine SpecMachine.
Import ListNotations.
Open Scope Z_scope.

(** ** The frame, as in EnsembleFloatProofs *)

Definition fframe (e e' : fens) : Prop := same_dims (f_first e) (f_first e').

Lemma fframe_refl : forall e, fframe e e.
Proof. intros e. repeat split. Qed.
Lemma fframe_trans : forall a b c, fframe a b -> fframe b c -> fframe a c.
Proof. unfold fframe, same_dims. intuition congruence. Qed.

Lemma fincr_dims : forall m a b c v m', fincr m a b c v = Ok m' -> same_dims m m'.
Proof.
  intros m a b c v m' H. unfold fincr in H. cbv zeta in H. destruct (vget _ _); cbn [bind] in H; try discriminate.
  destruct (vset _ _ _); cbn [bind] in H; try discriminate. inversion H; subst. repeat split.
Qed.

Lemma fL_walk_dims : forall P F x rows a b, fL_walk P F x rows a = Ok b -> same_dims a b.
Proof.
  intros P F [[h i] j] rows. destruct P as [[[p0 q0] [p1 q1]] [p2 q2]].
  induction rows as [|r rows IH]; intros a b H; cbn [fL_walk] in H; [inversion H; subst; repeat split|].
  destruct r as [|dh [|di [|dj [|]]]]; try discriminate.
  destruct (aget _ _ _ _); cbn [bind] in H; try discriminate. destruct (_ =? 0); [inversion H; subst; repeat split|].
  destruct (fincr _ _ _ _ _) eqn:E; cbn [bind] in H; try discriminate. apply fincr_dims in E. apply IH in H.
  unfold same_dims in *. intuition congruence.
Qed.

Lemma fL_stamp_frame : forall P F n mode e s e', fL_stamp P F n mode e s = Ok e' -> fframe e e'.
Proof.
  intros P F n mode e s e' H. unfold fL_stamp in H. unbind H. inversion H; subst. unfold fframe. cbn.
  apply foldM_keep with (R := same_dims) in Heqr0; [exact Heqr0|repeat split|unfold same_dims; intuition congruence|intros; eapply fL_walk_dims; eauto].
Qed.

Definition fsame_dims2 (a b : arr double * arr double) : Prop := same_dims (fst a) (fst b).

Lemma fW2c_walk_dims : forall P C Fm F label x all rest q a b, fW2c_walk P C Fm F label x all rest q a = Ok b -> fsame_dims2 a b.
Proof.
  intros P C Fm F label [[h i] j] all rest. destruct P as [[[p0 q0] [p1 q1]] [p2 q2]].
  induction rest as [|r rest IH]; intros q a b H; cbn [fW2c_walk] in H; [inversion H; subst; repeat split|].
  destruct r as [|dh [|di [|dj [|]]]]; try discriminate.
  destruct (aget C _ _ _); cbn [bind] in H; try discriminate.
  match type of H with bind ?r _ = Ok _ => destruct r as [fn| | |] eqn:E; cbn [bind] in H; try discriminate end.
  apply IH in H. assert (D : fsame_dims2 a fn).
  { unbind E; try (inversion E; subst; repeat split; fail). destruct a2 as [|th [|ti [|tj [|]]]]; try discriminate. unbind E.
    inversion E; subst. unfold fsame_dims2. cbn [fst]. eapply fincr_dims; eauto. }
  unfold fsame_dims2, same_dims in *. intuition congruence.
Qed.

Lemma fW2c_stamp_frame : forall P C Ce Fm F mode e s e', fW2c_stamp P C Ce Fm F mode e s = Ok e' -> fframe e e'.
Proof.
  intros P C Ce Fm F mode e s e' H. unfold fW2c_stamp in H. unbind H. inversion H; subst. unfold fframe. cbn.
  apply foldM_keep with (R := fsame_dims2) in Heqr0; [exact Heqr0|repeat split|unfold fsame_dims2, same_dims; intuition congruence|].
  intros x p y HX. unfold fW2c_point in HX. unbind HX; try (inversion HX; subst; repeat split; fail). eapply fW2c_walk_dims; eauto.
Qed.

Lemma floop_frame : forall A (F : fens -> A -> res fens) l e s e',
  (forall a x b, F a x = Ok b -> fframe a b) -> foldM F l (fset_stat e s) = Ok e' -> fframe e e'.
Proof.
  intros A F l e s e' HF H. apply fframe_trans with (fset_stat e s); [repeat split|].
  eapply foldM_keep; [apply fframe_refl|apply fframe_trans|exact HF|exact H].
Qed.

Lemma fadd_frame : forall L asrt e c e', fadd L asrt e c = Ok e' -> fframe e e'.
Proof.
  intros L asrt e c e' H. destruct c; cbn [fadd] in H.
  - unfold fmean in H. unbind H. inversion H; subst. unfold fframe. cbn. unfold fplus0 in Heqr1. unbind Heqr1. inversion Heqr1; subst. repeat split.
  - unfold fmean_masked in H. unbind H. inversion H; subst. unfold fframe. cbn. unfold fplus0 in Heqr3. unbind Heqr3. inversion Heqr3; subst. repeat split.
  - unfold fS2 in H. unbind H. eapply floop_frame; [|exact H].
    intros x p y HX. unfold fS2_point in HX. unbind HX; inversion HX; subst; try (repeat split; fail); unfold fframe; cbn [fset_data f_first]; destruct (deq _ _); repeat split.
  - unfold fC2 in H. unbind H. eapply floop_frame; [|exact H].
    intros x p y HX. unfold fC2_point in HX. unbind HX; inversion HX; subst; try (repeat split; fail); unfold fframe; cbn [fset_data f_first]; destruct (_ =? 0); repeat split.
  - unfold fW2 in H. unbind H. eapply floop_frame; [|exact H].
    intros x p y HX. unfold fW2_point in HX. unbind HX; inversion HX; subst; try (repeat split; fail); unfold fframe; cbn [fset_data f_first]; destruct (deq _ _); repeat split.
  - unfold fW2c in H. unbind H. eapply floop_frame; [|exact H]. intros. eapply fW2c_stamp_frame; eauto.
  - unfold fheightheight in H. unbind H. eapply floop_frame; [|exact H].
    intros x p y HX. unfold fhh_point in HX. unbind HX; inversion HX; subst; repeat split.
  - unfold fL in H. unbind H. eapply floop_frame; [|exact H]. intros. eapply fL_stamp_frame; eauto.
Qed.

(** ** One path *)

Lemma pad_reach : forall n p q a, pad_axis n = (p, q) -> 1 <= n < 2 ^ 32 -> 0 <= a < n -> 2 * Z.abs (a - p) <= n.
Proof.
  intros n p q a H B A. unfold pad_axis in H. pose proof (Z.div_mod n 2 ltac:(lia)). destruct (n mod 2 =? 0) eqn:E; inversion H; subst; clear H.
  - apply Z.eqb_eq in E. rewrite Z.mod_small by lia. lia.
  - apply Z.eqb_neq in E. pose proof (Z.mod_pos_bound n 2 ltac:(lia)).
    replace (n - 1) with (n / 2 * 2) by lia. rewrite Z.div_mul by lia. lia.
Qed.

Lemma origin_same : forall fuel mode, (1 <= fuel)%nat -> ipath fuel [0; 0; 0] [0; 0; 0] mode = path fuel [0; 0; 0] [0; 0; 0] mode.
Proof. intros [|fuel] mode H; [lia|]. destruct mode; vm_compute; reflexivity. Qed.

Lemma path_same : forall fuel n0 n1 n2 mode s, 1 <= n0 <= reach mode -> 1 <= n1 <= reach mode -> 1 <= n2 <= reach mode ->
  n0 + n1 + n2 + 1 <= Z.of_nat fuel ->
  In s (stamps n0 n1 n2 (pad_width n0 n1 n2)) -> ipath fuel [0; 0; 0] s mode = path fuel [0; 0; 0] s mode.
Proof.
  intros fuel n0 n1 n2 mode s R0 R1 R2 HF HI. unfold stamps, pad_width in HI.
  destruct (pad_axis n0) as [p0 q0] eqn:E0, (pad_axis n1) as [p1 q1] eqn:E1, (pad_axis n2) as [p2 q2] eqn:E2.
  apply in_map_iff in HI. destruct HI as ([[a b] c] & <- & HI). apply filter_In in HI. destruct HI as [HI _]. apply loop3_In in HI.
  assert (RR : reach mode <= 2 ^ 31 - 1) by (destruct mode; cbn [reach]; lia).
  pose proof (pad_reach _ _ _ a E0 ltac:(lia) ltac:(lia)) as A. pose proof (pad_reach _ _ _ b E1 ltac:(lia) ltac:(lia)) as B.
  pose proof (pad_reach _ _ _ c E2 ltac:(lia) ltac:(lia)) as C.
  set (x := a - p0) in *. set (y := b - p1) in *. set (z := c - p2) in *. clearbody x y z. clear E0 E1 E2 HI.
  destruct (list_eq_dec Z.eq_dec [0; 0; 0] [x; y; z]) as [<-|N]; [apply origin_same; lia|].
  destruct mode.
  - destruct (ibresenham_exact fuel [0; 0; 0] [x; y; z]) as (rows & H1 & H2 & _); cbn [length]; try lia; try exact N; cbn [reach] in *.
    + repeat constructor; unfold is_int; lia.
    + repeat constructor; unfold is_int; lia.
    + cbn [span]. lia.
    + cbn [span]. lia.
    + congruence.
  - destruct (iline_exact fuel [0; 0; 0] [x; y; z] actual) as (rows & H1 & H2); cbn [length]; auto; try lia; cbn [reach] in *.
    + cbn [span]. lia.
    + exists 0%Q. repeat constructor; intros _; reflexivity.
    + cbn [manhattan]. lia.
    + congruence.
  - destruct (iline_exact fuel [0; 0; 0] [x; y; z] full) as (rows & H1 & H2); cbn [length]; auto; try lia; cbn [reach] in *.
    + cbn [span]. lia.
    + exists 0%Q. repeat constructor; intros _; reflexivity.
    + cbn [manhattan]. lia.
    + congruence.
Qed.

(** ** The calls *)

Lemma foldM_same : forall A S (I : S -> Prop) (F G : S -> A -> res S) l s,
  I s -> (forall s x, I s -> In x l -> F s x = G s x) -> (forall s x s', I s -> In x l -> G s x = Ok s' -> I s') -> foldM F l s = foldM G l s.
Proof.
  intros A S I F G. induction l as [|x l IH]; intros s HI H K; cbn [foldM]; [reflexivity|].
  rewrite H by (auto; left; reflexivity). destruct (G s x) as [s'| | |] eqn:E; cbn [bind]; try reflexivity.
  apply IH; [eapply K; eauto; left; reflexivity|intros; apply H; auto; right; assumption|intros; eapply K; eauto; right; assumption].
Qed.

Lemma bind_same : forall A B (r : res A) (f g : A -> res B), (forall a, r = Ok a -> f a = g a) -> bind r f = bind r g.
Proof. intros A B [a| | |] f g H; cbn [bind]; auto. Qed.

Definition near (mode : path_mode) (e : fens) : Prop :=
  d0 (f_first e) <= reach mode /\ d1 (f_first e) <= reach mode /\ d2 (f_first e) <= reach mode.

Lemma froi_pos : forall e u, froi_ok e = Ok u -> 1 <= d0 (f_first e) /\ 1 <= d1 (f_first e) /\ 1 <= d2 (f_first e).
Proof.
  intros e u H. unfold froi_ok in H. destruct (_ || _) eqn:E; [discriminate|]. apply orb_false_iff in E. destruct E as [E E2].
  apply orb_false_iff in E. destruct E as [E0 E1]. apply Z.ltb_ge in E0, E1, E2. auto.
Qed.

Lemma mL_same : forall asrt e f mode, near mode e -> mL asrt e f mode = fL asrt e f mode.
Proof.
  intros asrt e f mode (R0 & R1 & R2). unfold mL, fL. do 3 (apply bind_same; intros ? ?). apply froi_pos in H1. destruct H1 as (P0 & P1 & P2).
  cbv zeta. do 2 (apply bind_same; intros ? ?).
  apply (foldM_same _ _ (fun e' => fframe e e')); [repeat split| |].
  - intros e' s (D0 & D1 & D2) HI. unfold mL_stamp, fL_stamp. unfold fpath_fuel. rewrite D0, D1, D2.
    rewrite (path_same _ (d0 (f_first e)) (d1 (f_first e)) (d2 (f_first e))); try lia; try exact HI. reflexivity.
  - intros e' s e'' D HI E. eapply fframe_trans; [exact D|eapply fL_stamp_frame; exact E].
Qed.

Lemma mW2c_same : forall asrt e c ce f m mode, near mode e -> mW2c asrt e c ce f m mode = fW2c asrt e c ce f m mode.
Proof.
  intros asrt e c ce f m mode (R0 & R1 & R2). unfold mW2c, fW2c. do 6 (apply bind_same; intros ? _). apply bind_same; intros u H.
  apply froi_pos in H. destruct H as (P0 & P1 & P2).
  cbv zeta. do 8 (apply bind_same; intros ? ?).
  apply (foldM_same _ _ (fun e' => fframe e e')); [repeat split| |].
  - intros e' s (D0 & D1 & D2) HI. unfold mW2c_stamp, fW2c_stamp. unfold fpath_fuel. rewrite D0, D1, D2.
    rewrite (path_same _ (d0 (f_first e)) (d1 (f_first e)) (d2 (f_first e))); try lia; try exact HI. reflexivity.
  - intros e' s e'' D HI E. eapply fframe_trans; [exact D|eapply fW2c_stamp_frame; exact E].
Qed.

Lemma fens_near : forall asrt roi per var x mode, fensemble asrt roi per var = Ok x -> Forall (fun n => n <= reach mode) roi -> near mode x.
Proof.
  intros asrt roi per var x mode H F. unfold fensemble in H. unbind H. inversion H; subst. unfold near. cbn [f_first tab d0 d1 d2].
  assert (1 <= reach mode) by (destruct mode; cbn [reach]; lia).
  destruct roi as [|n [|m [|k [|? ?]]]]; cbn [shape3] in Heqr0; inversion Heqr0; subst;
    repeat match goal with X : Forall _ (_ :: _) |- _ => inversion X; subst; clear X end; lia.
Qed.

Lemma machine_same : forall L asrt roi per var cs, Forall (within_reach roi) cs ->
  (x <- fensemble asrt roi per var ;; mrun L asrt cs x) = (x <- fensemble asrt roi per var ;; frun L asrt cs x).
Proof.
  intros L asrt roi per var cs W. apply bind_same. intros x EX. unfold mrun, frun.
  apply (foldM_same _ _ (fun e' => fframe x e')); [repeat split| |].
  - intros e c (D0 & D1 & D2) HI. rewrite Forall_forall in W. specialize (W c HI).
    destruct c; cbn [madd fadd within_reach] in *; try reflexivity.
    + apply mW2c_same. unfold near. rewrite D0, D1, D2. eapply fens_near; eauto.
    + apply mL_same. unfold near. rewrite D0, D1, D2. eapply fens_near; eauto.
  - intros e c e' D _ E. eapply fframe_trans; [exact D|eapply fadd_frame; exact E].
Qed.

Lemma machine_exact : forall L M asrt roi per var cs ds,
  library L -> 1 <= M -> Forall (fun n => 0 <= n) roi ->
  Forall2 same_call cs ds -> Forall (integral_call M) cs -> all_calls roi var M cs <= 2 ^ 53 -> Forall (within_reach roi) ds ->
  alike (fun e x => exact_data e x /\ Forall2 (rounded_value L) (result e) (fresult L x))
    (e <- ensemble asrt roi per var ;; run asrt cs e) (x <- fensemble asrt roi per var ;; mrun L asrt ds x).
Proof. intros. rewrite machine_same by assumption. eapply integers_exact; eauto. Qed.
