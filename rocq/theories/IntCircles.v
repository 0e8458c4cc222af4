(** * IntCircles: circles with checked [int]s (proofs only). *)

From Coq Require Import ZArith Reals List Bool Lia Lra.
From Flocq Require Import Core BinarySingleNaN.
From Verif Require Import Base BaseLemmas Path Circles SpecCluster SpecCircles CirclesProofs Double SpecDouble DoubleProofs DoubleError
  PathFloat PathFloatProofs CirclesFloat SpecCirclesFloat CirclesFloatProofs IntArith SpecInt.
From Verif Require PathProofs IntProofs.
Import ListNotations.
Open Scope Z_scope.

Lemma foldM_ext_in : forall A S (f g : S -> A -> res S) l s, (forall a s, In a l -> f s a = g s a) -> foldM f l s = foldM g l s.
Proof.
  intros A S f g. induction l as [|a l IH]; intros s H; cbn [foldM]; [reflexivity|].
  rewrite H by (left; reflexivity). destruct (g s a); cbn [bind]; auto. apply IH. intros. apply H. right. assumption.
Qed.

Lemma foldM_map : forall A B S (f : S -> B -> res S) (h : A -> B) l s, foldM f (map h l) s = foldM (fun s a => f s (h a)) l s.
Proof.
  intros A B S f h. induction l as [|a l IH]; intros s; cbn [foldM map]; [reflexivity|].
  destruct (f s (h a)); cbn [bind]; auto.
Qed.

Lemma foldM_prod : forall A B S (g : S -> A -> B -> res S) l m s,
  foldM (fun s a => foldM (fun s b => g s a b) m s) l s = foldM (fun s d => g s (fst d) (snd d)) (list_prod l m) s.
Proof.
  intros A B S g l m. induction l as [|a l IH]; intros s; cbn [foldM list_prod]; [reflexivity|].
  rewrite foldM_app, foldM_map. cbn [fst snd]. destruct (foldM (fun s b => g s a b) m s); cbn [bind]; auto.
Qed.

Lemma foldM_filter : forall A S (f g : S -> A -> res S) (c : A -> bool) l s,
  (forall a s, In a l -> g s a = if c a then f s a else Ok s) -> foldM g l s = foldM f (filter c l) s.
Proof.
  intros A S f g c. induction l as [|a l IH]; intros s H; cbn [foldM filter]; [reflexivity|].
  rewrite H by (left; reflexivity). destruct (c a); cbn [foldM].
  - destruct (f s a); cbn [bind]; auto. apply IH. intros. apply H. right. assumption.
  - cbn [bind]. apply IH. intros. apply H. right. assumption.
Qed.

(** A fold whose steps succeed or are undefined, and one of which is always undefined. *)
Lemma foldM_UB : forall A S (f : S -> A -> res S) l s, (forall a s, In a l -> f s a = UB \/ exists s', f s a = Ok s') ->
  (exists a, In a l /\ forall s, f s a = UB) -> foldM f l s = UB.
Proof.
  intros A S f. induction l as [|b l IH]; intros s H (a & Ha & U); [destruct Ha|]. cbn [foldM].
  destruct Ha as [->|Ha]; [rewrite U; reflexivity|].
  destruct (H b s (or_introl eq_refl)) as [-> |(s' & ->)]; cbn [bind]; [reflexivity|]. apply IH; [|eauto].
  intros. apply H. right. assumption.
Qed.

Lemma foldM_OkUB : forall A S (f : S -> A -> res S) l s, (forall a s, In a l -> f s a = UB \/ exists s', f s a = Ok s') ->
  foldM f l s = UB \/ exists s', foldM f l s = Ok s'.
Proof.
  intros A S f. induction l as [|b l IH]; intros s H; cbn [foldM]; [eauto|].
  destruct (H b s (or_introl eq_refl)) as [-> |(s' & ->)]; cbn [bind]; [auto|]. apply IH. intros. apply H. right. assumption.
Qed.

Lemma iradius_ok : forall root a b, accurate root -> Z.abs a <= 2 ^ 26 -> Z.abs b <= 2 ^ 26 ->
  iradius root a b = Ok (dceil (root (fsquares a b))).
Proof.
  intros root a b A Ha Hb. destruct (fsquares_value a b Ha Hb) as [F V].
  assert (P : 0 <= a * a + b * b <= 2 ^ 27 * 2 ^ 27) by nia.
  destruct (A (fsquares a b) F) as [G C]; [rewrite V; apply IZR_le; lia|]. rewrite V in C.
  assert (S0 : (0 <= sqrt (IZR (a * a + b * b)))%R) by apply sqrt_pos.
  assert (S1 : (sqrt (IZR (a * a + b * b)) <= IZR (2 ^ 27))%R).
  { rewrite <- (sqrt_square (IZR (2 ^ 27))) by (apply IZR_le; lia). apply sqrt_le_1_alt. rewrite <- mult_IZR. apply IZR_le. lia. }
  destruct (dz_value (2 ^ 27) ltac:(lia)) as [F1 V1]. destruct (dz_value 0 ltac:(lia)) as [F0 V0].
  assert (R : (0 <= B2R (root (fsquares a b)) <= IZR (2 ^ 27))%R).
  { destruct C as [[C1 C2]|[C1 C2]].
    - split; [|lra]. rewrite <- V0. apply C2; [exact F0|]. rewrite V0. exact S0.
    - split; [lra|]. rewrite <- V1. apply C2; [exact F1|]. rewrite V1. exact S1. }
  unfold iradius. apply IntProofs.i32_int. unfold is_int. split.
  - destruct (Z_lt_le_dec (dceil (root (fsquares a b))) 0) as [L|L]; [|lia].
    assert (L' : dceil (root (fsquares a b)) <= -1) by lia. apply (dceil_spec _ _ G) in L'.
    assert (IZR (-1) < 0)%R by (apply IZR_lt; lia). lra.
  - assert (L : dceil (root (fsquares a b)) <= 2 ^ 27) by (apply (dceil_spec _ _ G); lra). lia.
Qed.

Lemma irange_ok : forall r, - 2 ^ 31 < r < 2 ^ 31 - 1 -> irange r = Ok (zrange (- r) (r + 1)).
Proof.
  intros r H. unfold irange. rewrite IntProofs.i32_int by (unfold is_int; lia). cbn [bind].
  destruct (- r <=? r) eqn:E; [rewrite IntProofs.i32_int by (unfold is_int; lia); reflexivity|].
  unfold zrange. replace (Z.to_nat (r + 1 - - r)) with 0%nat by lia. reflexivity.
Qed.

Lemma ipaint_circle_ok : forall root per n m row col r out i x y rad, accurate root ->
  tget row i = Ok x -> tget col i = Ok y -> tget r i = Ok rad -> int_circle x y rad ->
  ipaint_circle root per n m row col r out i = fpaint_circle root per n m row col r out i.
Proof.
  intros root per n m row col r out i x y rad A Ex Ey Er [C1 C2]. unfold ipaint_circle, fpaint_circle.
  rewrite Ex, Ey, Er. cbn [bind]. rewrite irange_ok by lia. cbn [bind].
  rewrite (foldM_prod Z Z (list Z) (fun out di dj => (if per then ipaint_periodic else ipaint_inside) root n m x y rad out di dj)).
  unfold fdisc. apply foldM_filter. intros [di dj] o I. cbn [fst snd].
  apply in_prod_iff in I. destruct I as [Ia Ib]. apply zrange_In in Ia. apply zrange_In in Ib.
  destruct C2 as (X1 & X2 & Y1 & Y2); [lia|]. unfold is_int in *.
  assert (IX : i32 (x + di) = Ok (x + di)) by (apply IntProofs.i32_int; unfold is_int; lia).
  assert (IY : i32 (y + dj) = Ok (y + dj)) by (apply IntProofs.i32_int; unfold is_int; lia).
  destruct per; [unfold ipaint_periodic|unfold ipaint_inside]; rewrite ?IX, ?IY; cbn [bind]; rewrite iradius_ok by (auto; lia); cbn [bind].
  - destruct (_ <? rad); rewrite ?IX, ?IY; reflexivity.
  - unfold paint_inside. destruct (_ <? rad); destruct (_ && _); reflexivity.
Qed.

Lemma tget_zn : forall l n i, lenZ l = n -> 0 <= i < n -> tget l i = Ok (zn l i).
Proof. intros l n i L H. unfold tget. destruct (lenZ l =? 1) eqn:E; [replace i with 0 by lia|]; apply vget_ok; lia. Qed.

Lemma icircles_exact : forall root asrt n m row col r per, accurate root ->
  lenZ col = lenZ row -> lenZ r = lenZ row ->
  (forall k, 0 <= k < lenZ row -> int_circle (zn row k) (zn col k) (zn r k)) ->
  idummy_circles root asrt [n; m] row col r per = dummy_circles asrt [n; m] row col r per.
Proof.
  intros root asrt n m row col r per A LC LR H. rewrite <- (fdummy_exact root asrt [n; m] row col r per A).
  - unfold idummy_circles, fdummy_circles.
    destruct (assertb asrt (lenZ row =? lenZ col)); cbn [bind]; auto.
    destruct (assertb asrt (lenZ row =? lenZ r)); cbn [bind]; auto.
    destruct (assertb asrt (lenZ [n; m] =? 2)); cbn [bind]; auto.
    apply foldM_ext_in. intros k o Hk. apply zrange_In in Hk.
    apply (ipaint_circle_ok root per n m row col r o k (zn row k) (zn col k) (zn r k) A); auto; apply (tget_zn _ (lenZ row)); auto.
  - intros x Hx. apply (In_nth _ _ 0) in Hx. destruct Hx as (k & Hk & E). specialize (H (Z.of_nat k)).
    unfold lenZ in *. destruct H as [H _]; [lia|]. unfold zn in H. rewrite Nat2Z.id in H. rewrite E in H. lia.
Qed.

Lemma ipaint_inside_OkUB : forall root n m x y r out di dj, ipaint_inside root n m x y r out di dj = UB \/
  exists o, ipaint_inside root n m x y r out di dj = Ok o.
Proof.
  intros root n m x y r out di dj. unfold ipaint_inside.
  destruct (IntProofs.i32_total (x + di)) as [-> | ->]; cbn [bind]; [|auto].
  destruct (IntProofs.i32_total (y + dj)) as [-> | ->]; cbn [bind]; [|auto].
  destruct (_ && _); [|eauto]. unfold iradius.
  match goal with |- context [i32 ?e] => destruct (IntProofs.i32_total e) as [-> | ->] end; cbn [bind]; [|auto].
  destruct (_ <? r); [|eauto]. unfold paint_inside. destruct (_ && _); [|eauto]. unfold vset.
  repeat match goal with |- context [if ?c then _ else _] => destruct c end; eauto.
Qed.

Lemma irange_OkUB : forall r, irange r = UB \/ (irange r = Ok (zrange (- r) (r + 1)) /\ - 2 ^ 31 < r < 2 ^ 31).
Proof.
  intros r. unfold irange. destruct (i32 (- r)) as [lo| | |] eqn:E; cbn [bind]; auto;
    try (destruct (IntProofs.i32_total (- r)) as [X|X]; rewrite X in E; discriminate).
  apply IntProofs.i32_inv in E. destruct E as [-> E]. unfold is_int in E.
  destruct (- r <=? r) eqn:C.
  - destruct (i32 (r + 1)) as [hi| | |] eqn:E2; cbn [bind]; auto;
      try (destruct (IntProofs.i32_total (r + 1)) as [X|X]; rewrite X in E2; discriminate).
    apply IntProofs.i32_inv in E2. destruct E2 as [-> E2]. unfold is_int in E2. right. split; [reflexivity|lia].
  - right. unfold zrange. replace (Z.to_nat (r + 1 - - r)) with 0%nat by lia. split; [reflexivity|lia].
Qed.

Lemma icircle_UB : forall root n m row col r o i x y rad, tget row i = Ok x -> tget col i = Ok y -> tget r i = Ok rad -> 
  0 <= rad -> ~ (is_int (x - rad) /\ is_int (x + rad) /\ is_int (y - rad) /\ is_int (y + rad)) ->
  ipaint_circle root false n m row col r o i = UB.
Proof.
  intros root n m row col r o i x y rad Ex Ey Er R N. unfold ipaint_circle. rewrite Ex, Ey, Er. cbn [bind].
  destruct (irange_OkUB rad) as [-> |[-> B]]; cbn [bind]; [reflexivity|].
  rewrite (foldM_prod Z Z (list Z) (fun out di dj => ipaint_inside root n m x y rad out di dj)).
  apply foldM_UB; [intros; apply ipaint_inside_OkUB|].
  assert (K : exists di dj, - rad <= di <= rad /\ - rad <= dj <= rad /\ (~ is_int (x + di) \/ ~ is_int (y + dj))).
  { unfold is_int in *.
    destruct (Z_lt_le_dec (x - rad) (- 2 ^ 31)); [exists (- rad), 0; lia|].
    destruct (Z_lt_le_dec (x + rad) (2 ^ 31)); [|exists rad, 0; lia].
    destruct (Z_lt_le_dec (y - rad) (- 2 ^ 31)); [exists 0, (- rad); lia|].
    destruct (Z_lt_le_dec (y + rad) (2 ^ 31)); [|exists 0, rad; lia].
    exfalso. apply N. lia. }
  destruct K as (di & dj & Hi & Hj & K). exists (di, dj). split.
  - apply in_prod_iff. split; apply zrange_In; lia.
  - intros s. cbn [fst snd]. unfold ipaint_inside. destruct K as [K|K]; rewrite (IntProofs.i32_bad _ K); cbn [bind]; [reflexivity|].
    destruct (IntProofs.i32_total (x + di)) as [-> | ->]; reflexivity.
Qed.

Lemma icircle_OkUB : forall root n m row col r o i x y rad, tget row i = Ok x -> tget col i = Ok y -> tget r i = Ok rad -> 
  ipaint_circle root false n m row col r o i = UB \/ exists o', ipaint_circle root false n m row col r o i = Ok o'.
Proof.
  intros root n m row col r o i x y rad Ex Ey Er. unfold ipaint_circle. rewrite Ex, Ey, Er. cbn [bind].
  destruct (irange_OkUB rad) as [-> |[-> B]]; cbn [bind]; [auto|].
  rewrite (foldM_prod Z Z (list Z) (fun out di dj => ipaint_inside root n m x y rad out di dj)).
  apply foldM_OkUB. intros; apply ipaint_inside_OkUB.
Qed.

Lemma icircles_UB : forall root asrt n m row col r k, lenZ col = lenZ row -> lenZ r = lenZ row ->
  0 <= k < lenZ row -> 0 <= zn r k ->
  ~ (is_int (zn row k - zn r k) /\ is_int (zn row k + zn r k) /\ is_int (zn col k - zn r k) /\ is_int (zn col k + zn r k)) ->
  idummy_circles root asrt [n; m] row col r false = UB.
Proof.
  intros root asrt n m row col r k LC LR Hk R N. unfold idummy_circles. rewrite LC, LR, Z.eqb_refl.
  replace (assertb asrt true) with (Ok tt) by (destruct asrt; reflexivity). cbn [bind].
  replace (lenZ [n; m] =? 2) with true by reflexivity. replace (assertb asrt true) with (Ok tt) by (destruct asrt; reflexivity). cbn [bind].
  apply foldM_UB.
  - intros i s Hi. apply zrange_In in Hi. apply (icircle_OkUB root n m row col r s i (zn row i) (zn col i) (zn r i)); apply (tget_zn _ (lenZ row)); auto.
  - exists k. split; [apply zrange_In; lia|]. intros s.
    apply (icircle_UB root n m row col r s k (zn row k) (zn col k) (zn r k)); auto; apply (tget_zn _ (lenZ row)); auto.
Qed.
