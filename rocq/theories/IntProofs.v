(** * IntProofs: checked [int]s (proofs only). *)

From Coq Require Import ZArith QArith List Bool Lia.
From Verif Require Import Base BaseLemmas Path SpecPath PathProofs PathTop Double PathFloat PathFloatProofs PathFloatTop PathTolerance IntArith SpecInt.
Import ListNotations.
Open Scope Z_scope.

Lemma i32_inv : forall z y, i32 z = Ok y -> y = z /\ is_int z.
Proof.
  intros z y. unfold i32, is_int. destruct ((- 2 ^ 31 <=? z) && (z <? 2 ^ 31)) eqn:E; [|discriminate].
  intros H. inversion H; subst. apply andb_true_iff in E. destruct E. split; [reflexivity|]. lia.
Qed.

Lemma i32_bad : forall z, ~ is_int z -> i32 z = UB.
Proof.
  intros z H. unfold i32, is_int in *. destruct ((- 2 ^ 31 <=? z) && (z <? 2 ^ 31)) eqn:E; [|reflexivity].
  apply andb_true_iff in E. destruct E. lia.
Qed.

Lemma i32_total : forall z, i32 z = Ok z \/ i32 z = UB.
Proof. intros z. unfold i32. destruct (_ && _); auto. Qed.

Lemma i32_int : forall z, is_int z -> i32 z = Ok z.
Proof. intros z H. apply i32_ok. exact H. Qed.

(** ** Bresenham *)

Lemma bres_loop_head : forall fuel ndim xb j a s x d rows, bres_loop fuel ndim xb j a s x d = Ok rows ->
  exists rest, rows = row ndim x :: rest.
Proof.
  intros [|fuel] ndim xb j a s x d rows H; cbn [bres_loop] in H; [discriminate|].
  destruct (tget xb (idx j)); cbn [bind] in H; try discriminate.
  destruct (_ =? _); [inversion H; eauto|].
  destruct (bres_check _ _ _ _) as [x' d'].
  destruct (bres_loop fuel _ _ _ _ _ _ _); cbn [bind] in H; try discriminate. inversion H; eauto.
Qed.

Definition dbound (j : axis3) (a d : v3) : Prop := forall i, i <> j -> - get a j <= get d i <= get a i.

Lemma row_int : forall ndim x i, Forall is_int (row ndim x) -> idx i < Z.of_nat ndim -> is_int (get x i).
Proof.
  intros ndim [u v w] i H L. unfold row in H. rewrite Forall_forall in H.
  destruct ndim as [|[|[|n]]]; destruct i; cbn in *; try lia; apply H; auto.
Qed.

Lemma ibres_loop_ok : forall fuel ndim xb j a s x d n rows,
  bres_loop fuel ndim xb j a s x d = Ok rows -> (forall r, In r rows -> Forall is_int r) ->
  (forall i, 0 <= get a i <= get a j) -> get a j < 2 ^ 31 -> dbound j a d ->
  (forall i, Z.of_nat ndim <= idx i -> get s i = 0 /\ is_int (get x i)) ->
  0 <= n -> n + lenZ rows < 2 ^ 31 ->
  ibres_loop fuel ndim xb j a s x d n = Ok rows.
Proof.
  induction fuel as [|fuel IH]; intros ndim xb j a s x d n rows H HI HA HJ HD HS Hn HL; [discriminate|].
  pose proof (bres_loop_head _ _ _ _ _ _ _ _ _ H) as (rest0 & ER).
  assert (L1 : 1 <= lenZ rows) by (subst rows; rewrite lenZ_cons; pose proof (lenZ_nonneg _ rest0); lia).
  clear rest0 ER. cbn [bres_loop] in H. cbn [ibres_loop]. rewrite i32_int by (unfold is_int; lia). cbn [bind].
  destruct (tget xb (idx j)) as [b| | |] eqn:EB; cbn [bind] in *; try discriminate.
  destruct (get x j =? b); [exact H|].
  set (p := fst (others j)) in *. set (q := snd (others j)) in *.
  pose proof (oth_p j) as Hpj. pose proof (oth_q j) as Hqj. pose proof (oth_pq j) as Hpq. pose proof (oth_all j) as Hall.
  fold p in Hpj, Hpq, Hall. fold q in Hqj, Hpq, Hall.
  assert (CK : forall i X D X' D', i <> j -> bres_check (get a j) s (X, D) i = (X', D') ->
    - get a j <= get D i <= get a i -> is_int (get X' i) -> 
    ibres_check (get a j) s (X, D) i = Ok (X', D') /\ - get a j <= get D' i <= 0 /\
    (get X' i = get X i \/ get X' i = get X i + get s i) /\
    (forall k, k <> i -> get X' k = get X k) /\ (forall k, k <> i -> get D' k = get D k)).
  { intros i X D X' D' Hi E B1 B2. unfold bres_check in E. unfold ibres_check. pose proof (HA i).
    destruct (0 <=? get D i) eqn:C; inversion E; subst X' D'; clear E.
    - rewrite gss in B2. rewrite (i32_int _ B2). cbn [bind]. rewrite i32_int by (unfold is_int; lia). cbn [bind].
      split; [reflexivity|]. rewrite !gss. split; [lia|]. split; [auto|]. split; intros; apply gso; auto.
    - split; [reflexivity|]. split; [lia|]. split; [auto|]. split; auto. }
  destruct (bres_check (get a j) s (x, d) p) as [x1 d1] eqn:E1.
  destruct (bres_check (get a j) s (x1, d1) q) as [x2 d2] eqn:E2.
  set (x3 := set x2 j (get x2 j + get s j)) in *.
  destruct (bres_loop fuel ndim xb j a s x3 _) as [rest| | |] eqn:EL; cbn [bind] in H; try discriminate.
  inversion H as [HR]. subst rows. clear H.
  assert (X1 : forall k, k <> p -> get x1 k = get x k).
  { intros k Hk. unfold bres_check in E1. destruct (0 <=? get d p); inversion E1; subst; auto. apply gso; auto. }
  assert (X2 : forall k, k <> q -> get x2 k = get x1 k).
  { intros k Hk. unfold bres_check in E2. destruct (0 <=? get d1 q); inversion E2; subst; auto. apply gso; auto. }
  assert (S0 : forall i, Z.of_nat ndim <= idx i -> get x3 i = get x i).
  { intros i Hi. destruct (HS i Hi) as [Z0 _]. unfold x3. destruct (Hall i) as [E|[E|E]]; rewrite E in *; clear E.
    - rewrite gss, Z0, X2, X1 by auto. lia.
    - rewrite gso by auto. rewrite X2 by auto. unfold bres_check in E1. destruct (0 <=? get d p); inversion E1; subst; auto. rewrite gss. lia.
    - rewrite gso by auto. unfold bres_check in E2. destruct (0 <=? get d1 q); inversion E2; subst; auto. rewrite gss, Z0, X1 by auto. lia. }
  pose proof (bres_loop_head _ _ _ _ _ _ _ _ _ EL) as (rest1 & ER1).
  assert (I3 : forall i, is_int (get x3 i)).
  { intros i. destruct (Z_lt_le_dec (idx i) (Z.of_nat ndim)) as [L|L].
    - apply (row_int ndim); [|exact L]. apply HI. right. rewrite ER1. left. reflexivity.
    - rewrite S0 by exact L. apply (HS i L). }
  assert (J3 : get x3 p = get x1 p) by (unfold x3; rewrite gso by auto; apply X2; auto).
  assert (K3 : get x3 q = get x2 q) by (unfold x3; rewrite gso by auto; auto).
  destruct (CK p x d x1 d1 Hpj E1 (HD p Hpj)) as (C1 & B1 & _ & _ & D1); [rewrite <- J3; apply I3|].
  assert (DQ : - get a j <= get d1 q <= get a q) by (rewrite D1 by auto; apply HD; auto).
  destruct (CK q x1 d1 x2 d2 Hqj E2 DQ) as (C2 & B2 & _ & _ & D2); [rewrite <- K3; apply I3|].
  rewrite C1. cbn [bind]. rewrite C2. cbn [bind].
  assert (XJ : is_int (get x2 j + get s j)).
  { specialize (I3 j). unfold x3 in I3. rewrite gss in I3. exact I3. }
  rewrite (i32_int _ XJ). cbn [bind]. fold x3.
  pose proof (HA p). pose proof (HA q).
  assert (DP : get d2 p = get d1 p) by (apply D2; auto).
  rewrite i32_int by (unfold is_int; lia). cbn [bind].
  rewrite (gso _ p q) by auto.
  rewrite i32_int by (unfold is_int; lia). cbn [bind].
  rewrite gso in EL by auto.
  rewrite (IH _ _ _ _ _ _ _ (n + 1) rest EL); [reflexivity| | | | | | |].
  - intros r Hr. apply HI. right. exact Hr.
  - exact HA.
  - exact HJ.
  - intros i Hi. destruct (Hall i) as [E|[E|E]]; rewrite E in *; [congruence| |].
    + rewrite gso by auto. rewrite gss. lia.
    + rewrite gss. lia.
  - intros i Hi. destruct (HS i Hi). split; [assumption|]. rewrite S0 by exact Hi. assumption.
  - lia.
  - rewrite lenZ_cons in HL. lia.
Qed.

Lemma bres_axis_cases : forall xa xb i, Forall is_int xa -> Forall is_int xb -> 0 <= i -> length xb = length xa ->
  bres_axis xa xb i = UB \/
  (exists a s x, bres_axis xa xb i = Ok (a, s, x) /\ 0 <= a < 2 ^ 31 /\ is_int x /\ (lenZ xa <= i -> s = 0 /\ a = 1)).
Proof.
  intros xa xb i Ha Hb Hi HL. unfold bres_axis. destruct (i <? lenZ xa) eqn:E.
  - assert (LX : lenZ xb = lenZ xa) by (unfold lenZ; congruence).
    assert (T : forall l, lenZ l = lenZ xa -> Forall is_int l -> exists v, tget l i = Ok v /\ is_int v).
    { intros l L F. unfold tget.
      assert (V : forall k, 0 <= k < lenZ l -> exists v, vget l k = Ok v /\ is_int v).
      { intros k Hk. exists (zn l k). split; [apply vget_ok; exact Hk|]. unfold zn. rewrite Forall_forall in F. apply F. apply nth_In. unfold lenZ in Hk. lia. }
      destruct (lenZ l =? 1) eqn:E1; apply V; lia. }
    destruct (T xa eq_refl Ha) as (p & -> & Hp). destruct (T xb LX Hb) as (q & -> & Hq). cbn [bind].
    destruct (i32_total (q - p)) as [-> | ->]; cbn [bind]; [|left; reflexivity].
    destruct (i32 (2 * Z.abs (q - p))) as [a| | |] eqn:EA; cbn [bind].
    + right. apply i32_inv in EA. destruct EA as [-> EA]. eexists _, _, _. split; [reflexivity|].
      unfold is_int in EA. split; [lia|]. split; [exact Hp|]. lia.
    + destruct (i32_total (2 * Z.abs (q - p))) as [X|X]; rewrite X in EA; discriminate.
    + left; reflexivity.
    + destruct (i32_total (2 * Z.abs (q - p))) as [X|X]; rewrite X in EA; discriminate.
  - right. exists 1, 0, 0. split; [reflexivity|]. split; [lia|]. split; [unfold is_int; lia|auto].
Qed.

Lemma dominant_max : forall a j, dominant a = Some j -> forall i, get a i <= get a j.
Proof.
  intros [u v w] j H i. unfold dominant, is_dominant in H. cbn in H.
  destruct (Z.max v w <=? u) eqn:E0; [inversion H; subst; destruct i; cbn; lia|].
  destruct (Z.max u w <=? v) eqn:E1; [inversion H; subst; destruct i; cbn; lia|].
  destruct (Z.max u v <=? w) eqn:E2; [inversion H; subst; destruct i; cbn; lia|discriminate].
Qed.

Lemma ibresenham_ok : forall fuel x0 x1 rows, Forall is_int x0 -> Forall is_int x1 -> length x1 = length x0 ->
  bresenham fuel x0 x1 = Ok rows -> lenZ rows < 2 ^ 31 -> (forall r, In r rows -> Forall is_int r) ->
  ibresenham fuel x0 x1 = Ok rows.
Proof.
  intros fuel x0 x1 rows F0 F1 HL H HR HI. unfold bresenham in H. unfold ibresenham.
  destruct (3 <? lenZ x0); [discriminate|].
  destruct (bres_axis_cases x0 x1 0 F0 F1 ltac:(lia) HL) as [E|(a0 & s0 & y0 & E & A0 & I0 & S0)]; rewrite E in *; clear E; cbn [bind] in *; [discriminate|].
  destruct (bres_axis_cases x0 x1 1 F0 F1 ltac:(lia) HL) as [E|(a1 & s1 & y1 & E & A1 & I1 & S1)]; rewrite E in *; clear E; cbn [bind] in *; [discriminate|].
  destruct (bres_axis_cases x0 x1 2 F0 F1 ltac:(lia) HL) as [E|(a2 & s2 & y2 & E & A2 & I2 & S2)]; rewrite E in *; clear E; cbn [bind] in *; [discriminate|].
  set (a := mkv3 a0 a1 a2) in *. destruct (dominant a) as [j|] eqn:ED; [|discriminate].
  pose proof (dominant_max a j ED) as DM.
  assert (AA : forall i, 0 <= get a i < 2 ^ 31) by (intros []; unfold a; cbn; assumption).
  pose proof (oth_p j) as Hpj. pose proof (oth_q j) as Hqj. pose proof (oth_pq j) as Hpq. pose proof (oth_all j) as Hall.
  destruct (others j) as [p q]. cbn [fst snd] in *.
  pose proof (AA p) as Ap. pose proof (AA q) as Aq. pose proof (AA j) as Aj. pose proof (DM p) as Dp. pose proof (DM q) as Dq.
  assert (HF : 0 <= get a j / 2 <= get a j) by (split; [apply Z.div_pos; lia|apply Z.div_le_upper_bound; lia]).
  rewrite i32_int by (unfold is_int; lia). cbn [bind]. rewrite i32_int by (unfold is_int; lia). cbn [bind].
  apply ibres_loop_ok with (1 := H); [exact HI| | | | |lia|lia].
  - intros i. specialize (AA i). specialize (DM i). lia.
  - lia.
  - intros i Hi. destruct (Hall i) as [E|[E|E]]; rewrite E in *; [congruence| |].
    + rewrite gso by auto. rewrite gss. lia.
    + rewrite gss. lia.
  - unfold lenZ in *. intros [] Hi; cbn in *; split; try assumption; [apply S0|apply S1|apply S2]; exact Hi.
Qed.

Lemma closer_int : forall g x y, closer g x y -> Forall is_int g -> Forall is_int x -> Forall is_int y.
Proof.
  induction g as [|a g IH]; intros [|b x] [|c y] H G X; cbn [closer] in H; try contradiction; [constructor|].
  inversion G; subst. inversion X; subst. destruct H as [C1 C2]. constructor; [|eapply IH; eauto].
  unfold is_int in *. destruct C1 as [->|[N ->]]; [assumption|]. destruct (Z.sgn_spec (a - b)) as [[? ->]|[[? ->]|[? ->]]]; lia.
Qed.

Lemma closer_length : forall g x y, closer g x y -> length x = length g /\ length y = length g.
Proof.
  induction g as [|a g IH]; intros [|b x] [|c y] H; cbn [closer] in H; try contradiction; [auto|].
  destruct H as [_ H]. apply IH in H. cbn. lia.
Qed.

Lemma closer_manhattan : forall g x y, closer g x y -> manhattan y g <= manhattan x g /\ (x <> y -> manhattan y g < manhattan x g).
Proof.
  induction g as [|a g IH]; intros [|b x] [|c y] H; cbn [closer] in H; try contradiction; [cbn; split; [lia|congruence]|].
  destruct H as [C1 C2]. apply IH in C2. destruct C2 as [C2 C3]. cbn [manhattan].
  assert (K : (c = b /\ Z.abs (a - c) = Z.abs (a - b)) \/ (Z.abs (a - c) < Z.abs (a - b))).
  { destruct C1 as [-> | [N ->]]; [left; auto|right]. destruct (Z.sgn_spec (a - b)) as [[? ->]|[[? ->]|[? ->]]]; lia. }
  split; [lia|]. intros NE. destruct K as [[-> K]|K]; [|lia]. assert (x <> y) by congruence. specialize (C3 H). lia.
Qed.

Lemma path_int : forall (adj : list Z -> list Z -> Prop) g rows x0,
  (forall x y, length x = length g -> adj x y -> closer g x y /\ x <> y) ->
  Forall is_int g -> Forall is_int x0 -> length x0 = length g ->
  hd_error rows = Some x0 -> consecutive adj rows ->
  (forall r, In r rows -> Forall is_int r) /\ lenZ rows <= manhattan x0 g + 1.
Proof.
  intros adj g rows. induction rows as [|x rows IH]; intros x0 HR G X LX H C; [discriminate|].
  cbn in H. inversion H; subst. destruct rows as [|y rows].
  - split; [intros r [<-|[]]; exact X|]. unfold lenZ. cbn [length].
    assert (0 <= manhattan x0 g); [|lia]. clear. revert g. induction x0 as [|a x IH]; intros [|b g]; cbn; try lia. specialize (IH g). lia.
  - destruct C as [C1 C2]. destruct (HR x0 y LX C1) as [K1 K2].
    destruct (IH y HR G) as [P1 P2]; auto; [eapply closer_int; eauto|apply (closer_length _ _ _ K1)|].
    split; [intros r [<-|Hr]; [exact X|apply P1; exact Hr]|].
    destruct (closer_manhattan _ _ _ K1) as [_ M]. specialize (M K2). rewrite lenZ_cons. lia.
Qed.

Lemma ibresenham_exact : forall fuel x0 x1, (1 <= length x0 <= 3)%nat -> length x1 = length x0 -> x0 <> x1 ->
  Forall is_int x0 -> Forall is_int x1 -> span x0 x1 < 2 ^ 30 -> (Z.to_nat (span x0 x1) < fuel)%nat ->
  exists rows, ipath fuel x0 x1 Bresenham = Ok rows /\ path fuel x0 x1 Bresenham = Ok rows /\
    path_between (some_closer x1) x0 x1 rows.
Proof.
  intros fuel x0 x1 HL HL' HN F0 F1 HS Hf.
  destruct (bresenham_connected fuel x0 x1 HL HL' HN HS Hf) as (rows & E & P & L).
  exists rows. split; [|split; assumption]. cbn [ipath]. cbn [path] in E. apply ibresenham_ok; auto; [lia|].
  destruct P as (P1 & _ & P3). apply (path_int (some_closer x1) x1 rows x0); auto.
Qed.

Lemma span_axis : forall x0 x1, length x1 = length x0 -> x0 <> [] -> exists i, 0 <= i < lenZ x0 /\ Z.abs (zn x1 i - zn x0 i) = span x0 x1.
Proof.
  induction x0 as [|a x0 IH]; intros [|b x1] HL N; try discriminate; [congruence|].
  cbn [span]. rewrite lenZ_cons. pose proof (lenZ_nonneg _ x0).
  destruct (Z.max_spec (Z.abs (b - a)) (span x0 x1)) as [[L ->]|[L ->]].
  - destruct x0 as [|c x0]; [cbn in L; lia|].
    destruct (IH x1) as (i & Hi & E); [cbn in *; lia|discriminate|]. exists (i + 1). split; [lia|].
    rewrite !zn_cons by lia. exact E.
  - exists 0. split; [lia|]. reflexivity.
Qed.

Lemma ibresenham_far : forall fuel x0 x1, (1 <= length x0 <= 3)%nat -> length x1 = length x0 ->
  Forall is_int x0 -> Forall is_int x1 -> 2 ^ 30 <= span x0 x1 -> ipath fuel x0 x1 Bresenham = UB.
Proof.
  intros fuel x0 x1 HL HL' F0 F1 HS. cbn [ipath]. unfold ibresenham.
  replace (3 <? lenZ x0) with false by (unfold lenZ; lia).
  destruct (span_axis x0 x1 HL') as (i & Hi & E); [intros ->; cbn in HL; lia|].
  assert (B : bres_axis x0 x1 i = UB).
  { unfold bres_axis. replace (i <? lenZ x0) with true by lia.
    assert (LX : lenZ x1 = lenZ x0) by (unfold lenZ; congruence).
    assert (T : forall l, lenZ l = lenZ x0 -> tget l i = Ok (zn l i)).
    { intros l L. unfold tget. destruct (lenZ l =? 1) eqn:E1; [replace i with 0 by lia|]; apply vget_ok; lia. }
    rewrite !T by auto. cbn [bind]. destruct (i32_total (zn x1 i - zn x0 i)) as [-> | ->]; cbn [bind]; [|reflexivity].
    rewrite i32_bad; [reflexivity|]. unfold is_int. rewrite E. lia. }
  assert (K : i = 0 \/ i = 1 \/ i = 2) by (unfold lenZ in Hi; lia).
  destruct (bres_axis_cases x0 x1 0 F0 F1 ltac:(lia) HL') as [->|(? & ? & ? & E0 & _)]; [reflexivity|].
  destruct K as [->|K]; [congruence|]. rewrite E0. cbn [bind].
  destruct (bres_axis_cases x0 x1 1 F0 F1 ltac:(lia) HL') as [->|(? & ? & ? & E1 & _)]; [reflexivity|].
  destruct K as [->| ->]; [congruence|]. rewrite E1. cbn [bind]. rewrite B. reflexivity.
Qed.

(** ** Lines *)

Lemma icross_ok : forall d, is_int (g_c d + g_isign d) -> icross d = Ok (fcross d).
Proof. intros d H. unfold icross. rewrite (i32_int _ H). reflexivity. Qed.

Lemma icross_inv : forall d d', icross d = Ok d' -> d' = fcross d /\ is_int (g_c d').
Proof.
  intros d d' H. unfold icross in H. destruct (i32 _) as [z| | |] eqn:E; cbn [bind] in H; try discriminate.
  apply i32_inv in E. inversion H; subst. split; [reflexivity|]. apply E.
Qed.

Definition all_int (l : list fdimn) : Prop := Forall is_int (findex l).

Lemma icross_all_ok : forall tm l n, all_int (fcross_all tm l) -> is_int (n + 1) ->
  icross_all tm l n = Ok (fcross_all tm l, [findex (fcross_all tm l)], n + 1).
Proof.
  intros tm l n H N. unfold icross_all.
  assert (M : mapM (fun d => if fcrosses tm d then icross d else Ok d) l = Ok (fcross_all tm l)).
  { clear N. induction l as [|d l IH]; [reflexivity|]. unfold all_int in H. cbn [fcross_all findex map] in H.
    inversion H as [|? ? H1 H2]; subst. cbn [mapM fcross_all map].
    destruct (fcrosses tm d); [rewrite icross_ok by exact H1|]; cbn [bind]; rewrite IH by exact H2; reflexivity. }
  rewrite M. cbn [bind]. rewrite (i32_int _ N). reflexivity.
Qed.

Lemma icross_all_inv : forall tm l n l' rows n', all_int l -> icross_all tm l n = Ok (l', rows, n') ->
  l' = fcross_all tm l /\ all_int l' /\ rows = [findex l'] /\ n' = n + 1 /\ is_int n'.
Proof.
  intros tm l n l' rows n' A H. unfold icross_all in H.
  destruct (mapM _ l) as [k| | |] eqn:E; cbn [bind] in H; try discriminate.
  destruct (i32 (n + 1)) as [z| | |] eqn:EN; cbn [bind] in H; try discriminate.
  apply i32_inv in EN. destruct EN as [-> EN]. inversion H; subst. clear H.
  assert (K : l' = fcross_all tm l /\ all_int l').
  { clear EN. revert l' E. induction l as [|d l IH]; intros l' E; cbn [mapM] in E.
    - inversion E; subst. split; [reflexivity|constructor].
    - unfold all_int in A. cbn [findex map] in A. inversion A as [|? ? A1 A2]; subst.
      destruct (if fcrosses tm d then icross d else Ok d) as [d'| | |] eqn:ED; cbn [bind] in E; try discriminate.
      destruct (mapM _ l) as [k| | |] eqn:EK; cbn [bind] in E; try discriminate. inversion E; subst.
      destruct (IH A2 k eq_refl) as [-> I2]. cbn [fcross_all map]. unfold all_int. cbn [findex map].
      destruct (fcrosses tm d).
      + apply icross_inv in ED. destruct ED as [-> I1]. split; [reflexivity|]. constructor; assumption.
      + inversion ED; subst. split; [reflexivity|]. constructor; assumption. }
  destruct K as [K1 K2]. split; [exact K1|]. split; [exact K2|]. split; [reflexivity|]. split; [reflexivity|exact EN].
Qed.

Lemma findex_app : forall l k, findex (l ++ k) = findex l ++ findex k.
Proof. intros. apply map_app. Qed.

Lemma icross_each_ok : forall tm todo done n, (forall r, In r (fcross_each tm done todo) -> Forall is_int r) ->
  0 <= n -> n + lenZ (fcross_each tm done todo) < 2 ^ 31 ->
  icross_each tm done todo n = Ok (done ++ fcross_all tm todo, fcross_each tm done todo, n + lenZ (fcross_each tm done todo)).
Proof.
  intros tm. induction todo as [|d todo IH]; intros done n H N L; cbn [icross_each fcross_each fcross_all map] in *.
  - rewrite app_nil_r. replace (n + lenZ []) with n by (unfold lenZ; cbn; lia). reflexivity.
  - destruct (fcrosses tm d) eqn:C.
    + rewrite lenZ_cons in *. pose proof (lenZ_nonneg _ (fcross_each tm (done ++ [fcross d]) todo)).
      rewrite icross_ok.
      2: { assert (F : Forall is_int (findex (done ++ fcross d :: todo))) by (apply H; left; reflexivity).
           rewrite findex_app in F. apply Forall_app in F. destruct F as [_ F]. cbn [findex map] in F. inversion F; subst. assumption. }
      cbn [bind]. rewrite i32_int by (unfold is_int; lia). cbn [bind].
      rewrite (IH (done ++ [fcross d]) (n + 1)); [|intros r Hr; apply H; right; exact Hr|lia|lia].
      cbn [bind]. rewrite <- app_assoc. cbn [app].
      match goal with |- Ok (_, _, ?u) = Ok (_, _, ?v) => replace u with v by lia end. reflexivity.
    + rewrite (IH (done ++ [d]) n H N L). rewrite <- app_assoc. reflexivity.
Qed.

Lemma icross_each_inv : forall tm todo done n l' rows n', all_int (done ++ todo) -> is_int n -> icross_each tm done todo n = Ok (l', rows, n') ->
  l' = done ++ fcross_all tm todo /\ all_int l' /\ rows = fcross_each tm done todo /\ Forall (Forall is_int) rows /\ n' = n + lenZ rows /\ is_int n'.
Proof.
  intros tm. induction todo as [|d todo IH]; intros done n l' rows n' A N H; cbn [icross_each fcross_each fcross_all map] in *.
  - inversion H; subst. rewrite app_nil_r in *. split; [reflexivity|]. split; [exact A|]. split; [reflexivity|]. split; [constructor|].
    split; [unfold lenZ; cbn; lia|exact N].
  - destruct (fcrosses tm d) eqn:C.
    + destruct (icross d) as [d'| | |] eqn:ED; cbn [bind] in H; try discriminate.
      apply icross_inv in ED. destruct ED as [-> ID].
      destruct (i32 (n + 1)) as [z| | |] eqn:EN; cbn [bind] in H; try discriminate. apply i32_inv in EN. destruct EN as [-> EN].
      destruct (icross_each tm (done ++ [fcross d]) todo (n + 1)) as [[[l2 r2] n2]| | |] eqn:E; cbn [bind] in H; try discriminate.
      inversion H; subst. clear H.
      unfold all_int in A. rewrite findex_app in A. apply Forall_app in A. destruct A as [A1 A2]. cbn [findex map] in A2. inversion A2; subst.
      assert (A' : all_int ((done ++ [fcross d]) ++ todo)).
      { unfold all_int. rewrite <- app_assoc, findex_app. apply Forall_app. split; [assumption|]. cbn [app findex map]. constructor; assumption. }
      destruct (IH _ _ _ _ _ A' EN E) as (-> & I2 & -> & F & -> & I3).
      rewrite <- app_assoc. cbn [app]. rewrite lenZ_cons. split; [reflexivity|]. split; [rewrite <- app_assoc in I2; exact I2|].
      split; [reflexivity|]. split; [constructor; [rewrite <- app_assoc in A'; exact A'|exact F]|]. split; [lia|exact I3].
    + assert (A' : all_int ((done ++ [d]) ++ todo)) by (rewrite <- app_assoc; exact A).
      destruct (IH _ _ _ _ _ A' N H) as (-> & I2 & R). rewrite <- app_assoc in *. split; [reflexivity|]. split; [exact I2|exact R].
Qed.

Lemma findex_move : forall tm l, findex (map (fmove tm) l) = findex l.
Proof. intros tm l. unfold findex. rewrite map_map. apply map_ext. reflexivity. Qed.

(** The last row of a turn is the pixel. *)
Lemma cross_each_last : forall tm todo done r, In r (findex (done ++ todo) :: fcross_each tm done todo) \/ True ->
  last (findex (done ++ todo) :: fcross_each tm done todo) [] = findex (done ++ fcross_all tm todo).
Proof.
  intros tm. induction todo as [|d todo IH]; intros done r _; cbn [fcross_each fcross_all map]; [reflexivity|].
  destruct (fcrosses tm d) eqn:C.
  - specialize (IH (done ++ [fcross d]) r (or_intror I)). rewrite <- !app_assoc in IH. cbn [app] in IH.
    etransitivity; [|exact IH]. reflexivity.
  - specialize (IH (done ++ [d]) r (or_intror I)). rewrite <- !app_assoc in IH. cbn [app] in IH. exact IH.
Qed.

Lemma iline_loop_inv : forall full fuel l n rows, all_int l -> is_int n -> 0 <= n -> iline_loop full fuel l n = Ok rows ->
  fline_loop full fuel l = Ok rows /\ Forall (Forall is_int) rows /\ n + lenZ rows < 2 ^ 31.
Proof.
  intros full. induction fuel as [|fuel IH]; intros l n rows A N N0 H; cbn [iline_loop fline_loop] in *; [discriminate|].
  destruct (ftmin l) as [tm|]; [|discriminate].
  assert (ST : forall l0 rs n', (if full then icross_each tm [] l n else icross_all tm l n) = Ok (l0, rs, n') ->
    l0 = fcross_all tm l /\ all_int l0 /\ rs = (if full then fcross_each tm [] l else [findex (map (fmove tm) (fcross_all tm l))]) /\
    Forall (Forall is_int) rs /\ n' = n + lenZ rs /\ is_int n').
  { intros l0 rs n' E. destruct full.
    - apply (icross_each_inv tm l [] n l0 rs n' A N E).
    - apply icross_all_inv in E; [|exact A]. destruct E as (-> & I2 & -> & -> & I3). rewrite findex_move. split; [reflexivity|].
      split; [exact I2|]. split; [reflexivity|]. split; [constructor; [exact I2|constructor]|]. split; [reflexivity|exact I3]. }
  destruct (if full then _ else _) as [[[l0 rs] n']| | |]; cbn [bind] in H; try discriminate.
  destruct (ST l0 rs n' eq_refl) as (-> & I0 & ER & FR & -> & I3). rewrite <- ER.
  destruct (freached (map (fmove tm) (fcross_all tm l))).
  - inversion H; subst. split; [reflexivity|]. split; [exact FR|]. unfold is_int in I3. lia.
  - destruct (iline_loop full fuel _ _) as [rest| | |] eqn:EL; cbn [bind] in H; try discriminate. inversion H; subst rows.
    apply IH in EL; [|unfold all_int; rewrite findex_move; exact I0|exact I3|pose proof (lenZ_nonneg _ rs); lia].
    destruct EL as (-> & FF & LL). cbn [bind]. split; [reflexivity|]. split; [apply Forall_app; auto|].
    unfold lenZ in *. rewrite app_length. lia.
Qed.

Lemma iline_loop_ok : forall full fuel l n rows, all_int l -> 0 <= n -> fline_loop full fuel l = Ok rows ->
  Forall (Forall is_int) rows -> n + lenZ rows < 2 ^ 31 -> iline_loop full fuel l n = Ok rows.
Proof.
  intros full. induction fuel as [|fuel IH]; intros l n rows A N H F L; cbn [iline_loop fline_loop] in *; [discriminate|].
  destruct (ftmin l) as [tm|]; [|discriminate].
  set (rs := if full then fcross_each tm [] l else [findex (map (fmove tm) (fcross_all tm l))]) in *.
  assert (ST : Forall (Forall is_int) rs -> n + lenZ rs < 2 ^ 31 ->
    (if full then icross_each tm [] l n else icross_all tm l n) = Ok (fcross_all tm l, rs, n + lenZ rs) /\ all_int (fcross_all tm l)).
  { intros FR LR. unfold rs in *. clear rs. destruct full.
    - rewrite icross_each_ok; [|rewrite Forall_forall in FR; exact FR|exact N|exact LR]. split; [reflexivity|].
      pose proof (cross_each_last tm l [] [] (or_intror I)) as E. cbn [app] in E. unfold all_int. rewrite <- E.
      assert (FF : Forall (Forall is_int) (findex l :: fcross_each tm [] l)) by (constructor; assumption).
      rewrite Forall_forall in FF. apply FF. destruct (exists_last (l := findex l :: fcross_each tm [] l)) as (u & v & EE); [discriminate|].
      rewrite EE, last_last. apply in_or_app. right. left. reflexivity.
    - rewrite findex_move in *. inversion FR; subst. rewrite icross_all_ok; [split; [reflexivity|assumption]|assumption|].
      unfold is_int. unfold lenZ in LR. cbn in LR. lia. }
  destruct (freached (map (fmove tm) (fcross_all tm l))) eqn:FR.
  - inversion H; subst rows. destruct (ST F L) as [-> _]. cbn [bind]. rewrite FR. reflexivity.
  - destruct (fline_loop full fuel _) as [rest| | |] eqn:EL; cbn [bind] in H; try discriminate. inversion H; subst rows.
    apply Forall_app in F. destruct F as [F1 F2]. 
    assert (LL : lenZ (rs ++ rest) = lenZ rs + lenZ rest) by (unfold lenZ; rewrite app_length; lia).
    pose proof (lenZ_nonneg _ rest). pose proof (lenZ_nonneg _ rs).
    destruct (ST F1 ltac:(lia)) as [-> I0]. cbn [bind]. rewrite FR.
    rewrite (IH _ (n + lenZ rs) rest); [reflexivity|unfold all_int; rewrite findex_move; exact I0|lia|exact EL|exact F2|lia].
Qed.

Lemma fline_init_index : forall xa xb i l, fline_init xa xb i = Ok l -> findex l = xa.
Proof.
  induction xa as [|p xa IH]; intros xb i l H; cbn [fline_init] in H; [inversion H; reflexivity|].
  unfold fline_axis in H. destruct (tget xb i); cbn [bind] in H; try discriminate.
  destruct (i32 _); cbn [bind] in H; try discriminate.
  destruct (fline_init xa xb (i + 1)) as [k| | |] eqn:E; cbn [bind] in H; try discriminate. inversion H; subst.
  cbn [findex map]. f_equal. apply (IH _ _ _ E).
Qed.

Lemma iline_iff : forall fuel x0 x1 mode rows, mode = actual \/ mode = full -> Forall is_int x0 ->
  ipath fuel x0 x1 mode = Ok rows <->
  fpath fuel x0 x1 mode = Ok rows /\ Forall (Forall is_int) rows /\ lenZ rows < 2 ^ 31.
Proof.
  intros fuel x0 x1 mode rows M F.
  assert (G : forall b, iline b fuel x0 x1 = Ok rows <-> fline b fuel x0 x1 = Ok rows /\ Forall (Forall is_int) rows /\ lenZ rows < 2 ^ 31).
  { intros b. unfold iline, fline. destruct (3 <? lenZ x0); [split; [discriminate|intros [? _]; discriminate]|].
    destruct (fline_init x0 x1 0) as [l| | |] eqn:E; cbn [bind]; try (split; [discriminate|intros [? _]; discriminate]).
    apply fline_init_index in E. assert (A : all_int l) by (unfold all_int; rewrite E; exact F).
    split.
    - destruct (iline_loop b fuel l 1) as [rest| | |] eqn:EL; cbn [bind]; try discriminate. intros H. inversion H; subst rows.
      apply iline_loop_inv in EL; [|exact A|unfold is_int; lia|lia]. destruct EL as (-> & F2 & L2). cbn [bind].
      split; [reflexivity|]. split; [constructor; assumption|]. rewrite lenZ_cons. lia.
    - destruct (fline_loop b fuel l) as [rest| | |] eqn:EL; cbn [bind]; try (intros [? _]; discriminate).
      intros (H & F2 & L2). inversion H; subst rows. rewrite lenZ_cons in L2. inversion F2; subst.
      rewrite (iline_loop_ok b fuel l 1 rest); auto; lia. }
  destruct M as [-> | ->]; cbn [ipath fpath]; apply G.
Qed.

Lemma one_closer_closer : forall g x y, length g = length x -> one_closer g x y -> closer g x y.
Proof.
  induction g as [|a g IH]; intros [|b x] [|c y] L H; cbn in *; try contradiction; try discriminate.
  destruct H as [[-> H]|(N & -> & ->)].
  - split; [auto|]. apply IH; [lia|exact H].
  - split; [auto|]. assert (LG : length g = length y) by lia. clear -LG. revert y LG.
    induction g as [|u g IH]; intros [|v y] E; cbn in *; try discriminate; auto.
Qed.

Lemma one_closer_neq : forall g x y, one_closer g x y -> x <> y.
Proof.
  induction g as [|a g IH]; intros [|b x] [|c y] H E; cbn in *; try contradiction.
  inversion E; subst. destruct H as [[_ H]|(N & K & _)]; [exact (IH _ _ H eq_refl)|].
  destruct (Z.sgn_spec (a - c)) as [[? S]|[[? S]|[? S]]]; rewrite S in K; lia.
Qed.

Lemma manhattan_span : forall x0 x1, manhattan x0 x1 <= lenZ x0 * span x0 x1.
Proof.
  induction x0 as [|a x0 IH]; intros [|b x1]; cbn [manhattan span]; try (unfold lenZ; cbn; lia).
  rewrite lenZ_cons. specialize (IH x1). pose proof (lenZ_nonneg _ x0). nia.
Qed.

Lemma iline_exact : forall fuel x0 x1 mode, mode = actual \/ mode = full ->
  (1 <= length x0 <= 3)%nat -> length x1 = length x0 -> x0 <> x1 ->
  span x0 x1 <= 707 -> through_origin x0 x1 -> Forall (fun c => Z.abs c <= 4096) x0 ->
  (Z.to_nat (manhattan x0 x1) <= fuel)%nat ->
  exists rows, ipath fuel x0 x1 mode = Ok rows /\ path fuel x0 x1 mode = Ok rows.
Proof.
  intros fuel x0 x1 mode M HL HL' HN HS HT H0 HF.
  assert (F0 : Forall is_int x0) by (eapply Forall_impl; [|exact H0]; cbn; unfold is_int; intros; lia).
  assert (F1 : Forall is_int x1).
  { clear - H0 HS HL'. revert x1 HL' HS. induction x0 as [|a x0 IH]; intros [|b x1] HL HS; try discriminate; constructor.
    - inversion H0; subst. cbn in HS. unfold is_int. lia.
    - inversion H0; subst. apply IH; [assumption|cbn in HL; lia|cbn in HS; lia]. }
  assert (MS : manhattan x0 x1 <= 3 * 707).
  { pose proof (manhattan_span x0 x1) as MM. unfold lenZ in MM. pose proof (span_nonneg x0 x1). nia. }
  rewrite <- (fpath_eq fuel x0 x1 mode HL HL' HS HT H0).
  assert (K : exists rows, fpath fuel x0 x1 mode = Ok rows /\ (forall r, In r rows -> Forall is_int r) /\ lenZ rows <= manhattan x0 x1 + 1).
  { destruct M as [-> | ->].
    - destruct (factual_reaches fuel x0 x1 HL HL' HN HS HT H0 HF) as (rows & E & P1 & _ & P3). exists rows. split; [exact E|].
      apply (path_int (some_closer x1) x1 rows x0); auto.
    - destruct (ffull_reaches fuel x0 x1 HL HL' HN HS HT H0 HF) as (rows & E & (P1 & _ & P3) & _). exists rows. split; [exact E|].
      apply (path_int (one_closer x1) x1 rows x0); auto. intros x y L H. split; [apply one_closer_closer; auto|eapply one_closer_neq; eauto]. }
  destruct K as (rows & E & I & L). exists rows. split; [|exact E].
  apply iline_iff; [exact M|exact F0|]. split; [exact E|]. split; [apply Forall_forall; exact I|lia].
Qed.

(** ** The counter *)

Lemma tget_fuel : forall l i, tget l i <> NoFuel.
Proof.
  intros l i. assert (V : forall k, vget l k <> NoFuel).
  { intros k. unfold vget. destruct (k <? 0); [discriminate|]. destruct (nth_error l (Z.to_nat k)); discriminate. }
  unfold tget. destruct (lenZ l =? 1); apply V.
Qed.

Lemma ibres_loop_ends : forall fuel ndim xb j a s x d n, ibres_loop fuel ndim xb j a s x d n = NoFuel -> n + Z.of_nat fuel < 2 ^ 31 \/ n >= 2 ^ 31.
Proof.
  induction fuel as [|fuel IH]; intros ndim xb j a s x d n H; [lia|]. cbn [ibres_loop] in H.
  destruct (i32 (n + 1)) as [z| | |] eqn:E; cbn [bind] in H; try discriminate.
  2: { destruct (i32_total (n + 1)) as [X|X]; rewrite X in E; discriminate. }
  apply i32_inv in E. destruct E as [-> E]. unfold is_int in E.
  destruct (tget xb (idx j)) as [b| | |] eqn:EB; cbn [bind] in H; try discriminate; [|exfalso; exact (tget_fuel _ _ EB)].
  destruct (get x j =? b); [discriminate|].
  assert (CK : forall xd i, exists r, ibres_check (get a j) s xd i = r /\ (r = UB \/ exists xd', r = Ok xd')).
  { intros [X D] i. eexists. split; [reflexivity|]. unfold ibres_check. destruct (0 <=? get D i); [|right; eauto].
    destruct (i32_total (get X i + get s i)) as [-> | ->]; cbn [bind]; [|auto].
    destruct (i32_total (get D i - get a j)) as [-> | ->]; cbn [bind]; eauto. }
  destruct (CK (x, d) (fst (others j))) as (r1 & E1 & [->|([x1 d1] & ->)]); rewrite E1 in H; cbn [bind] in H; [discriminate|].
  destruct (CK (x1, d1) (snd (others j))) as (r2 & E2 & [->|([x2 d2] & ->)]); rewrite E2 in H; cbn [bind] in H; [discriminate|].
  destruct (i32_total (get x2 j + get s j)) as [Y | Y]; rewrite Y in H; cbn [bind] in H; [|discriminate].
  match type of H with (bind (i32 ?e) _ = _) => destruct (i32_total e) as [Y1 | Y1]; rewrite Y1 in H; cbn [bind] in H; [|discriminate] end.
  match type of H with (bind (i32 ?e) _ = _) => destruct (i32_total e) as [Y2 | Y2]; rewrite Y2 in H; cbn [bind] in H; [|discriminate] end.
  match type of H with (bind ?e _ = _) => destruct e eqn:EL; cbn [bind] in H; try discriminate end.
  apply IH in EL. lia.
Qed.

Lemma iline_loop_ends : forall fuel l n, iline_loop false fuel l n = NoFuel -> n + Z.of_nat fuel < 2 ^ 31 \/ n >= 2 ^ 31.
Proof.
  induction fuel as [|fuel IH]; intros l n H; [lia|]. cbn [iline_loop] in H.
  destruct (ftmin l) as [tm|]; [|discriminate].
  assert (K : (exists l', icross_all tm l n = Ok (l', [findex l'], n + 1) /\ is_int (n + 1)) \/ icross_all tm l n = UB).
  { unfold icross_all.
    assert (M : (exists l', mapM (fun d => if fcrosses tm d then icross d else Ok d) l = Ok l') \/
                mapM (fun d => if fcrosses tm d then icross d else Ok d) l = UB).
    { clear. induction l as [|d l IHl]; cbn [mapM]; [eauto|].
      assert (C : (exists d', (if fcrosses tm d then icross d else Ok d) = Ok d') \/ (if fcrosses tm d then icross d else Ok d) = UB).
      { destruct (fcrosses tm d); [|eauto]. unfold icross. destruct (i32_total (g_c d + g_isign d)) as [-> | ->]; cbn [bind]; eauto. }
      destruct C as [[d' ->] | ->]; cbn [bind]; [|auto]. destruct IHl as [[l' ->] | ->]; cbn [bind]; eauto. }
    destruct M as [[l' ->] | ->]; cbn [bind]; [|auto].
    destruct (i32 (n + 1)) as [z| | |] eqn:E; cbn [bind]; auto;
      try (destruct (i32_total (n + 1)) as [X|X]; rewrite X in E; discriminate).
    apply i32_inv in E. destruct E as [-> E]. left. eauto. }
  destruct K as [(l' & E & I) | E]; rewrite E in H; cbn [bind] in H; [|discriminate].
  destruct (freached _); [discriminate|].
  match type of H with (bind ?e _ = _) => destruct e eqn:EL; cbn [bind] in H; try discriminate end.
  apply IH in EL. unfold is_int in I. lia.
Qed.

Lemma vget_fuel : forall A (l : list A) k, vget l k <> NoFuel.
Proof. intros A l k. unfold vget. destruct (k <? 0); [discriminate|]. destruct (nth_error l (Z.to_nat k)); discriminate. Qed.

Lemma bres_axis_fuel : forall xa xb i, bres_axis xa xb i <> NoFuel.
Proof.
  intros xa xb i. unfold bres_axis. destruct (i <? lenZ xa); [|discriminate].
  destruct (tget xa i) as [p| | |] eqn:E; cbn [bind]; try discriminate; [|exfalso; exact (tget_fuel _ _ E)].
  destruct (tget xb i) as [q| | |] eqn:E'; cbn [bind]; try discriminate; [|exfalso; exact (tget_fuel _ _ E')].
  destruct (i32_total (q - p)) as [-> | ->]; cbn [bind]; [|discriminate].
  destruct (i32_total (2 * Z.abs (q - p))) as [-> | ->]; cbn [bind]; discriminate.
Qed.

Lemma fline_init_fuel : forall xa xb i, fline_init xa xb i <> NoFuel.
Proof.
  induction xa as [|p xa IH]; intros xb i; cbn [fline_init]; [discriminate|]. unfold fline_axis.
  destruct (tget xb i) as [q| | |] eqn:E'; cbn [bind]; try discriminate; [|exfalso; exact (tget_fuel _ _ E')].
  destruct (i32_total (q - p)) as [-> | ->]; cbn [bind]; [|discriminate].
  destruct (fline_init xa xb (i + 1)) eqn:E; cbn [bind]; try discriminate. exfalso. exact (IH _ _ E).
Qed.

Lemma ipath_ends : forall fuel x0 x1 mode, mode = Bresenham \/ mode = actual -> 2 ^ 31 <= Z.of_nat fuel ->
  ipath fuel x0 x1 mode <> NoFuel.
Proof.
  intros fuel x0 x1 mode M F H. destruct M as [-> | ->]; cbn [ipath] in H.
  - unfold ibresenham in H. destruct (3 <? lenZ x0); [discriminate|].
    destruct (bres_axis x0 x1 0) as [[[? ?] ?]| | |] eqn:E0; cbn [bind] in H; try discriminate; [|exact (bres_axis_fuel _ _ _ E0)].
    destruct (bres_axis x0 x1 1) as [[[? ?] ?]| | |] eqn:E1; cbn [bind] in H; try discriminate; [|exact (bres_axis_fuel _ _ _ E1)].
    destruct (bres_axis x0 x1 2) as [[[? ?] ?]| | |] eqn:E2; cbn [bind] in H; try discriminate; [|exact (bres_axis_fuel _ _ _ E2)].
    destruct (dominant _) as [j|]; [|discriminate]. destruct (others j) as [p q].
    match type of H with (bind (i32 ?e) _ = _) => destruct (i32_total e) as [Y1 | Y1]; rewrite Y1 in H; cbn [bind] in H; [|discriminate] end.
    match type of H with (bind (i32 ?e) _ = _) => destruct (i32_total e) as [Y2 | Y2]; rewrite Y2 in H; cbn [bind] in H; [|discriminate] end.
    apply ibres_loop_ends in H. lia.
  - unfold iline in H. destruct (3 <? lenZ x0); [discriminate|].
    destruct (fline_init x0 x1 0) as [l| | |] eqn:E; cbn [bind] in H; try discriminate; [|exact (fline_init_fuel _ _ _ E)].
    destruct (iline_loop false fuel l 1) eqn:EL; cbn [bind] in H; try discriminate. apply iline_loop_ends in EL. lia.
Qed.
