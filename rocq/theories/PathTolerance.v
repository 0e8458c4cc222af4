(** * PathTolerance: beyond 707 pixels the tolerance on crossings shows (proofs only) *)

From Coq Require Import ZArith QArith List Bool Lia Lqa.
From Verif Require Import Base BaseLemmas Path SpecPath PathProofs LineProofs LineGeom Double PathFloat.
Import ListNotations.
Open Scope Z_scope.

Definition ahead (d : dimn) (c : Z) : Prop := 0 <= sign d * (c - d_c d).

Lemma ahead_refl : forall l, Forall2 ahead l (cindex l).
Proof. induction l; constructor; [unfold ahead; lia|assumption]. Qed.

Lemma ahead_next : forall tm l r, Forall2 ahead (next_l tm l) r -> Forall2 ahead l r.
Proof.
  intros tm l. induction l as [|d l IH]; intros r H; inversion H; subst; constructor; [|apply IH; assumption].
  unfold ahead in *. destruct (crosses tm d); cbn [move cross d_c] in *; unfold sign in *; cbn [move cross d_from d_to] in *;
    destruct (d_to d - d_from d); cbn [Z.sgn] in *; lia.
Qed.

Lemma loop_ahead : forall fuel l rows r, line_loop false fuel l = Ok rows -> In r rows -> Forall2 ahead l r.
Proof.
  induction fuel as [|fuel IH]; intros l rows r E Hr; [discriminate|]. cbn [line_loop] in E.
  destruct (tmin l) as [tm|]; [|discriminate]. fold (next_l tm l) in E.
  assert (H0 : Forall2 ahead l (cindex (next_l tm l))) by (apply ahead_next with tm; apply ahead_refl).
  destruct (reached (next_l tm l)).
  - injection E as <-. destruct Hr as [<-|[]]. exact H0.
  - destruct (line_loop false fuel (next_l tm l)) as [rest| | |] eqn:E2; try discriminate. cbn [bind] in E. injection E as <-.
    destruct Hr as [<-|Hr]; [exact H0|]. apply ahead_next with tm. apply IH with rest; assumption.
Qed.

(** [708;707]: the line enters [1;0] at 1/1416 and leaves it at 1/1414, less than the tolerance apart. *)
Lemma actual_skips : forall fuel rows, path fuel [0;0] [708;707] actual = Ok rows -> ~ In [1;0] rows.
Proof.
  intros fuel rows E Hr. cbn [path] in E. unfold line in E. change (3 <? lenZ [0;0]) with false in E. cbv iota in E.
  change (line_init [0;0] [708;707] 0) with (Ok (mks [0;0] [708;707])) in E. rewrite bind_Ok in E.
  destruct fuel as [|fuel]; [discriminate|]. cbn [line_loop] in E.
  assert (T : exists tm, tmin (mks [0;0] [708;707]) = Some tm /\ cindex (next_l tm (mks [0;0] [708;707])) = [1;1] /\
    reached (next_l tm (mks [0;0] [708;707])) = false /\ map sign (next_l tm (mks [0;0] [708;707])) = [1;1]).
  { eexists. split; [reflexivity|]. split; [vm_compute; reflexivity|]. split; vm_compute; reflexivity. }
  destruct T as (tm & T1 & T2 & T3 & T4). rewrite T1 in E. fold (next_l tm (mks [0;0] [708;707])) in E. rewrite T2, T3 in E.
  remember (next_l tm (mks [0;0] [708;707])) as l eqn:El.
  destruct (line_loop false fuel l) as [rest| | |] eqn:E2; try discriminate. cbn [bind] in E. injection E as <-.
  change (cindex (mks [0;0] [708;707])) with [0;0] in Hr. destruct Hr as [X|[X|Hr]]; [discriminate|discriminate|].
  pose proof (loop_ahead _ _ _ _ E2 Hr) as HA. clear -HA T2 T4. inversion HA as [|d c l1 r1 A1 HA1]; subst. inversion HA1 as [|d2 c2 l2 r2 A2 HA2]; subst.
  inversion HA2; subst. cbn [cindex map] in T2, T4. injection T2 as _ C2. injection T4 as _ S2. unfold ahead in A2. rewrite C2, S2 in A2. lia.
Qed.

(** [707;708]: [full] stores [1;0] in between. *)
Lemma full_strays : forall fuel rows, path fuel [0;0] [707;708] full = Ok rows -> In [1;0] rows.
Proof.
  intros fuel rows E. cbn [path] in E. unfold line in E. change (3 <? lenZ [0;0]) with false in E. cbv iota in E.
  change (line_init [0;0] [707;708] 0) with (Ok (mks [0;0] [707;708])) in E. rewrite bind_Ok in E.
  destruct fuel as [|fuel]; [discriminate|]. cbn [line_loop] in E.
  assert (T : exists tm, tmin (mks [0;0] [707;708]) = Some tm /\ cross_each tm [] (mks [0;0] [707;708]) = [[1;0];[1;1]]).
  { eexists. split; [reflexivity|]. vm_compute; reflexivity. }
  destruct T as (tm & T1 & T2). rewrite T1 in E. fold (next_l tm (mks [0;0] [707;708])) in E. rewrite T2 in E.
  destruct (reached (next_l tm (mks [0;0] [707;708]))).
  - cbn [bind] in E. injection E as <-. simpl. auto.
  - destruct (line_loop true fuel (next_l tm (mks [0;0] [707;708]))) as [rest| | |]; try discriminate. cbn [bind] in E. injection E as <-. simpl. auto.
Qed.

Lemma pierced_1_0 : pierces [0;0] [708;707] (1 # 1415) [1;0].
Proof. vm_compute. auto. Qed.

Lemma untouched_1_0 : forall t, ~ touches [0;0] [707;708] t [1;0].
Proof.
  intros t ((H1 & _) & (_ & H2) & _). change (0 - 0)%Z with 0%Z in *. change (707 - 0)%Z with 707%Z in *. change (708 - 0)%Z with 708%Z in *.
  unfold inject_Z in *. lra.
Qed.

Definition has (c : list Z) (r : res (list (list Z))) : option bool :=
  match r with Ok rows => Some (existsb (fun x => if list_eq_dec Z.eq_dec x c then true else false) rows) | _ => None end.

Lemma has_spec : forall c r b, has c r = Some b -> exists rows, r = Ok rows /\ (In c rows <-> b = true).
Proof.
  intros c [rows| | |] b H; try discriminate. injection H as <-. exists rows. split; [reflexivity|]. rewrite existsb_exists. split.
  - intros HI. exists c. split; [exact HI|]. destruct (list_eq_dec Z.eq_dec c c); [reflexivity|contradiction].
  - intros (x & HI & E). destruct (list_eq_dec Z.eq_dec x c) as [->|]; [exact HI|discriminate].
Qed.

Lemma factual_skips : exists rows, fpath 1415 [0;0] [708;707] actual = Ok rows /\ ~ In [1;0] rows.
Proof.
  destruct (has_spec [1;0] (fpath 1415 [0;0] [708;707] actual) false) as (rows & E & H); [vm_cast_no_check (eq_refl (Some false))|].
  exists rows. split; [exact E|]. rewrite H. discriminate.
Qed.

Lemma ffull_strays : exists rows, fpath 1415 [0;0] [707;708] full = Ok rows /\ In [1;0] rows.
Proof.
  destruct (has_spec [1;0] (fpath 1415 [0;0] [707;708] full) true) as (rows & E & H); [vm_cast_no_check (eq_refl (Some true))|].
  exists rows. split; [exact E|]. rewrite H. reflexivity.
Qed.
