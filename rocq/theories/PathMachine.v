(** * PathMachine: which paths end on the machine, [int]s and [double]s together (proofs only). *)

From Coq Require Import ZArith QArith List Bool Lia.
From Verif Require Import Base BaseLemmas Path SpecPath SpecPathEnd PathProofs LineProofs PathEnd Double PathFloat IntArith SpecInt IntProofs PathFloatEnd.
Import ListNotations.
Open Scope Z_scope.

Lemma small_int : forall x0 x1, length x1 = length x0 -> Forall (fun c => Z.abs c <= 4096) x0 -> span x0 x1 <= 707 -> Forall is_int x0 /\ Forall is_int x1.
Proof.
  induction x0 as [|a x0 IH]; intros [|b x1] HL H0 HS; try discriminate; [split; constructor|].
  inversion H0; subst. cbn [span] in HS. cbn [length] in HL. destruct (IH x1) as [I1 I2]; [lia|assumption|lia|].
  split; constructor; auto; unfold is_int; lia.
Qed.

Lemma iline_ends : forall fuel x0 x1 mode, mode = actual \/ mode = full ->
  (1 <= length x0 <= 3)%nat -> length x1 = length x0 -> x0 <> x1 ->
  span x0 x1 <= 707 -> Forall (fun c => Z.abs c <= 4096) x0 -> meets_origin x0 x1 ->
  (Z.to_nat (manhattan x0 x1) <= fuel)%nat ->
  exists rows, ipath fuel x0 x1 mode = Ok rows /\ path fuel x0 x1 mode = Ok rows.
Proof.
  intros fuel x0 x1 mode M HL HL' HN HS H0 HT HF. destruct (small_int x0 x1 HL' H0 HS) as [F0 F1].
  assert (MS : manhattan x0 x1 <= 3 * 707).
  { pose proof (IntProofs.manhattan_span x0 x1) as MM. unfold lenZ in MM. pose proof (span_nonneg x0 x1). nia. }
  rewrite <- (fpath_eq_any fuel x0 x1 mode HL HL' HS H0).
  assert (K : exists rows, fpath fuel x0 x1 mode = Ok rows /\ (forall r, In r rows -> Forall is_int r) /\ lenZ rows <= manhattan x0 x1 + 1).
  { destruct M as [-> | ->].
    - destruct (factual_ends fuel x0 x1 HL HL' HN HS H0 HT HF) as (rows & E & (P1 & _ & P3) & _). exists rows. split; [exact E|].
      apply (path_int (some_closer x1) x1 rows x0); auto.
    - destruct (ffull_ends fuel x0 x1 HL HL' HN HS H0 HT HF) as (rows & E & (P1 & _ & P3) & _). exists rows. split; [exact E|].
      apply (path_int (one_closer x1) x1 rows x0); auto. intros x y L H. split; [apply one_closer_closer; auto|eapply one_closer_neq; eauto]. }
  destruct K as (rows & E & I & L). exists rows. split; [|exact E].
  apply iline_iff; [exact M|exact F0|]. split; [exact E|]. split; [apply Forall_forall; exact I|lia].
Qed.

Lemma icross_each_no_throw : forall tm todo done n, icross_each tm done todo n <> Throw.
Proof.
  intros tm. induction todo as [|d todo IH]; intros done n H; cbn [icross_each] in H; [discriminate|].
  destruct (fcrosses tm d); [|exact (IH _ _ H)]. unfold icross in H.
  destruct (i32_total (g_c d + g_isign d)) as [X|X]; rewrite X in H; cbn [bind] in H; [|discriminate].
  destruct (i32_total (n + 1)) as [Y|Y]; rewrite Y in H; cbn [bind] in H; [|discriminate].
  destruct (icross_each tm _ todo (n + 1)) as [[[l rows] k]| | |] eqn:E; cbn [bind] in H; try discriminate. exact (IH _ _ E).
Qed.

Lemma iloop_no_throw : forall fl fuel l n, iline_loop fl fuel l n <> Throw.
Proof.
  intros fl. induction fuel as [|fuel IH]; intros l n H; cbn [iline_loop] in H; [discriminate|].
  destruct (ftmin l) as [tm|]; [|discriminate].
  assert (K : (if fl then icross_each tm [] l n else icross_all tm l n) <> Throw).
  { destruct fl; [apply icross_each_no_throw|]. unfold icross_all.
    assert (M : mapM (fun d => if fcrosses tm d then icross d else Ok d) l <> Throw).
    { clear. induction l as [|d l IHl]; cbn [mapM]; [discriminate|]. unfold icross at 1.
      destruct (fcrosses tm d); [destruct (i32_total (g_c d + g_isign d)) as [-> | ->]|]; cbn [bind]; try discriminate;
        (destruct (mapM _ l); cbn [bind]; try discriminate; congruence). }
    destruct (mapM _ l) as [l'| | |]; cbn [bind]; try discriminate; [|congruence].
    destruct (i32_total (n + 1)) as [-> | ->]; cbn [bind]; discriminate. }
  destruct (if fl then icross_each tm [] l n else icross_all tm l n) as [[[l0 rows] n']| | |]; cbn [bind] in H; try discriminate; [|exact (K eq_refl)].
  destruct (freached (map (fmove tm) l0)); [discriminate|].
  destruct (iline_loop fl fuel (map (fmove tm) l0) n') eqn:E; cbn [bind] in H; try discriminate. exact (IH _ _ E).
Qed.

Lemma iline_overflows : forall fuel x0 x1, (1 <= length x0 <= 3)%nat -> length x1 = length x0 -> x0 <> x1 ->
  span x0 x1 <= 707 -> Forall (fun c => Z.abs c <= 4096) x0 -> ~ meets_origin x0 x1 ->
  2 ^ 31 <= Z.of_nat fuel -> ipath fuel x0 x1 actual = UB.
Proof.
  intros fuel x0 x1 HL HL' HN HS H0 HT HF. destruct (small_int x0 x1 HL' H0 HS) as [F0 F1].
  destruct (ipath fuel x0 x1 actual) as [rows| | |] eqn:E; auto; exfalso.
  - apply iline_iff in E; auto. destruct E as [E _]. rewrite fnever_ends in E by auto. discriminate.
  - cbn [ipath] in E. unfold iline in E. destruct (3 <? lenZ x0); [discriminate|].
    destruct (line_start x0 x1 HL HL' ltac:(lia)) as [_ E2]. rewrite PathFloatProofs.fline_init_eq, E2, !bind_Ok in E.
    destruct (iline_loop _ _ _ _) eqn:EL; cbn [bind] in E; try discriminate. exact (iloop_no_throw _ _ _ _ EL).
  - apply ipath_ends in E; auto.
Qed.
