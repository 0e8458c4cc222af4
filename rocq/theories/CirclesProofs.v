(** * CirclesProofs: proofs about [dummy_circles] *)

From Coq Require Import ZArith List Bool Lia Reals Lra.
From Verif Require Import Base BaseLemmas Path Circles SpecCluster SpecCircles CenterLabels.
Import ListNotations.
Open Scope Z_scope.

Lemma sqrt_up_lt : forall s r, 0 <= s -> (Z.sqrt_up s < r <-> 1 <= r /\ s <= (r - 1) * (r - 1)).
Proof.
  intros s r Hs. split.
  - intro H. assert (0 <= Z.sqrt_up s) by apply Z.sqrt_up_nonneg.
    split; [lia|]. destruct (Z.eq_dec s 0) as [->|]; [nia|].
    destruct (Z.sqrt_up_spec s ltac:(lia)) as [_ U]. nia.
  - intros [R B]. destruct (Z_lt_ge_dec (Z.sqrt_up s) r) as [|G]; [assumption|exfalso].
    destruct (Z.eq_dec s 0) as [->|]; [rewrite Z.sqrt_up_0 in G; lia|].
    destruct (Z.sqrt_up_spec s ltac:(lia)) as [L _]. nia.
Qed.

Lemma disc_In : forall r a b, In (a, b) (disc r) <-> within r a b.
Proof.
  intros r a b. unfold disc, within. rewrite filter_In, in_prod_iff, !zrange_In. cbn [fst snd].
  rewrite Z.ltb_lt, sqrt_up_lt by nia. rewrite !Z.pow_2_r. split; [tauto|]. intros [H B].
  split; [|tauto]. nia.
Qed.

(** ** Painting a list of positions *)
Definition img01 (N : Z) (P : Z -> Prop) (out : list Z) : Prop :=
  lenZ out = N /\ forall p, 0 <= p < N -> (P p -> zn out p = 1) /\ (~ P p -> zn out p = 0).

Lemma upd_length : forall {A} n (v : A) l, length (upd n v l) = length l.
Proof. induction n; destruct l; cbn; auto. Qed.

Lemma upd_nth : forall {A} n (v : A) l k d, (k < length l)%nat ->
  nth k (upd n v l) d = if Nat.eqb k n then v else nth k l d.
Proof.
  induction n; destruct l; intros k d H; cbn in H; try lia; destruct k; cbn; auto. apply IHn. lia.
Qed.

Lemma vset_img : forall N (P : Z -> Prop) out q, img01 N P out -> (forall p, P p \/ ~ P p) -> 0 <= q < N ->
  exists out', vset out q 1 = Ok out' /\ img01 N (fun p => P p \/ p = q) out'.
Proof.
  intros N P out q [L H] D B. unfold vset. rewrite L. replace (_ || _) with false by lia.
  eexists. split; [reflexivity|]. split.
  - unfold lenZ in *. now rewrite upd_length.
  - intros p Hp. unfold zn, lenZ in *. rewrite upd_nth by lia.
    specialize (H p Hp). unfold zn in H.
    destruct (Nat.eqb (Z.to_nat p) (Z.to_nat q)) eqn:E.
    + apply Nat.eqb_eq in E. assert (p = q) by lia. subst. tauto.
    + apply Nat.eqb_neq in E. assert (p <> q) by lia. tauto.
Qed.

Lemma img01_ext : forall N (P Q : Z -> Prop) out, (forall p, 0 <= p < N -> (P p <-> Q p)) -> img01 N P out -> img01 N Q out.
Proof.
  intros N P Q out E [L H]. split; [assumption|]. intros p Hp. specialize (E p Hp). specialize (H p Hp). tauto.
Qed.

(** A loop of which each turn adds a decidable set. *)
Lemma fold_img : forall {A} N (f : list Z -> A -> res (list Z)) (S : A -> Z -> Prop),
  (forall a p, S a p \/ ~ S a p) ->
  forall l,
  (forall P out a, In a l -> (forall p, P p \/ ~ P p) -> img01 N P out ->
     exists out', f out a = Ok out' /\ img01 N (fun p => P p \/ S a p) out') ->
  forall P out, (forall p, P p \/ ~ P p) -> img01 N P out ->
  exists out', foldM f l out = Ok out' /\ img01 N (fun p => P p \/ exists a, In a l /\ S a p) out'.
Proof.
  intros A N f S DS. induction l as [|a t IH]; intros H P out D I.
  - exists out. split; [reflexivity|]. eapply img01_ext; [|exact I]. intros p _.
    split; [auto|]. intros [|(a & [] & _)]. assumption.
  - destruct (H P out a (or_introl eq_refl) D I) as (o1 & E1 & I1).
    destruct (IH) with (P := fun p => P p \/ S a p) (out := o1) as (o2 & E2 & I2).
    + intros. apply H; auto. now right.
    + intro p. destruct (D p), (DS a p); tauto.
    + exact I1.
    + exists o2. cbn [foldM]. rewrite E1. cbn [bind]. split; [exact E2|].
      eapply img01_ext; [|exact I2]. intros p _. cbn [In]. split.
      * intros [[|]|(b & Hb & Sb)]; [auto| |].
        -- right. exists a. auto.
        -- right. exists b. auto.
      * intros [|(b & [<-|Hb] & Sb)]; [auto|auto|]. right. exists b. auto.
Qed.

(** ** One pixel *)
Definition hit (per : bool) (n m : Z) (a b : Z) (p : Z) : Prop :=
  if per then p = a mod n * m + b mod m else 0 <= a < n /\ 0 <= b < m /\ p = a * m + b.

Lemma paint_ok : forall per n m P out a b, (per = true -> 0 < n /\ 0 < m) -> 0 <= n -> 0 <= m ->
  (forall p, P p \/ ~ P p) -> img01 (n * m) P out ->
  exists out', (if per then paint_periodic else paint_inside) n m out a b = Ok out' /\
    img01 (n * m) (fun p => P p \/ hit per n m a b p) out'.
Proof.
  intros per n m P out a b HP Hn Hm D I. destruct per; cbn [hit].
  - destruct HP as [N M]; [reflexivity|]. unfold paint_periodic.
    replace ((n =? 0) || (m =? 0)) with false by lia.
    apply (vset_img _ P); auto.
    pose proof (Z.mod_pos_bound a n N). pose proof (Z.mod_pos_bound b m M). nia.
  - unfold paint_inside. destruct ((0 <=? a) && (a <? n) && (0 <=? b) && (b <? m)) eqn:E.
    + assert (B : 0 <= a < n /\ 0 <= b < m) by lia.
      replace ((if n =? 1 then 0 else a * m) + (if m =? 1 then 0 else b)) with (a * m + b).
      2: { destruct (n =? 1) eqn:E1, (m =? 1) eqn:E2; nia. }
      destruct (vset_img (n * m) P out (a * m + b) I D) as (o & EO & IO); [nia|].
      exists o. split; [exact EO|]. eapply img01_ext; [|exact IO]. intros p _. tauto.
    + exists out. split; [reflexivity|]. eapply img01_ext; [|exact I]. intros p _.
      split; [auto|]. intros [|(? & ? & _)]; [assumption|lia].
Qed.

Lemma hit_dec : forall per n m a b p, hit per n m a b p \/ ~ hit per n m a b p.
Proof. intros. unfold hit. destruct per; lia. Qed.

Lemma exists_dec : forall {A} (l : list A) (Q : A -> Prop), (forall a, Q a \/ ~ Q a) ->
  (exists a, In a l /\ Q a) \/ ~ (exists a, In a l /\ Q a).
Proof.
  induction l as [|a t IH]; intros Q D; [right; intros (a & [] & _)|].
  destruct (D a); [left; exists a; cbn; auto|].
  destruct (IH Q D) as [(b & Hb & Qb)|N]; [left; exists b; cbn; auto|].
  right. intros (b & [<-|Hb] & Qb); [contradiction|]. apply N. eauto.
Qed.

Lemma split_index : forall a b m, 0 <= b < m -> (a * m + b) / m = a /\ (a * m + b) mod m = b.
Proof.
  intros a b m H. split.
  - rewrite Z.div_add_l, Z.div_small by lia. lia.
  - replace (a * m + b) with (b + a * m) by lia. rewrite Z.mod_add, Z.mod_small by lia. lia.
Qed.

Lemma moved_hit : forall per n m x y a b p, 0 <= p < n * m -> 0 < m ->
  (hit per n m (x + a) (y + b) p <-> moved per [n; m] [x; y] [a; b] [p / m; p mod m]).
Proof.
  intros per n m x y a b p Hp Hm. unfold hit. cbn [moved]. destruct per.
  - assert (0 < n) by nia.
    pose proof (Z.mod_pos_bound (y + b) m Hm). pose proof (Z.div_mod p m ltac:(lia)).
    pose proof (Z.mod_pos_bound p m Hm). split.
    + intros ->. destruct (split_index ((x + a) mod n) ((y + b) mod m) m) as [-> ->]; [lia|].
      repeat split.
    + intros (E1 & E2 & _). lia.
  - pose proof (Z.div_mod p m ltac:(lia)). pose proof (Z.mod_pos_bound p m Hm). split.
    + intros (H1 & H2 & ->). destruct (split_index (x + a) (y + b) m) as [-> ->]; [lia|]. lia.
    + intros (E1 & E2 & _). assert (0 <= p / m < n) by (split; [apply Z.div_pos; lia|apply Z.div_lt_upper_bound; nia]). lia.
Qed.

(** ** The image *)
Lemma tget_zn : forall l i, 0 <= i < lenZ l -> tget l i = Ok (zn l i).
Proof.
  intros l i H. unfold tget. destruct (lenZ l =? 1) eqn:E.
  - assert (i = 0) by lia. subst. apply vget_nth. lia.
  - apply vget_nth. lia.
Qed.

Lemma circles_ok : forall asrt n m row col r per, 0 <= n -> 0 <= m -> (per = true -> 0 < n /\ 0 < m) ->
  lenZ col = lenZ row -> lenZ r = lenZ row ->
  exists out, dummy_circles asrt [n; m] row col r per = Ok out /\ lenZ out = n * m /\
    forall p, pixel [n; m] p ->
      (covered per n m row col r (p / m) (p mod m) -> zn out p = 1) /\
      (~ covered per n m row col r (p / m) (p mod m) -> zn out p = 0).
Proof.
  intros asrt n m row col r per Hn Hm HP LC LR. unfold dummy_circles.
  rewrite LC, LR, Z.eqb_refl. change (lenZ [n; m] =? 2) with true.
  replace (assertb asrt true) with (Ok tt) by (destruct asrt; reflexivity). cbn [bind].
  set (S := fun i p => exists d, In d (disc (zn r i)) /\ hit per n m (zn row i + fst d) (zn col i + snd d) p).
  destruct (fold_img (n * m) (paint_circle per n m row col r) S) with
    (l := zrange 0 (lenZ row)) (P := fun _ : Z => False) (out := repeat 0 (Z.to_nat (n * m)))
    as (out & E & L & I).
  - intros i p. apply exists_dec. intro d. apply hit_dec.
  - intros P out i Hi D I. apply zrange_In in Hi. unfold paint_circle.
    rewrite !tget_zn by lia. cbn [bind].
    apply (fold_img (n * m) _ (fun d p => hit per n m (zn row i + fst d) (zn col i + snd d) p)); auto.
    + intros. apply hit_dec.
    + intros Q o d _ DQ IQ. apply paint_ok; auto.
  - intro p. right. tauto.
  - split; [unfold lenZ; rewrite repeat_length; nia|]. intros p Hp. split; [tauto|]. intros _. unfold zn.
    apply nth_repeat.
  - exists out. split; [exact E|]. split; [exact L|]. intros p Hp. unfold pixel in Hp. cbn [zprod] in Hp.
    rewrite Z.mul_1_r in Hp. assert (M : 0 < m) by nia. specialize (I p Hp).
    assert (Q : covered per n m row col r (p / m) (p mod m) <-> exists i, In i (zrange 0 (lenZ row)) /\ S i p).
    { split.
      - intros (i & x & y & rad & a & b & (Hi & -> & -> & ->) & W & MV).
        exists i. split; [apply zrange_In; lia|]. exists (a, b). split; [now apply disc_In|].
        cbn [fst snd]. now apply moved_hit.
      - intros (i & Hi & (a, b) & Hd & Hh). apply zrange_In in Hi. apply disc_In in Hd. cbn [fst snd] in Hh.
        exists i, (zn row i), (zn col i), (zn r i), a, b. split; [unfold circle; auto|]. split; [assumption|].
        apply moved_hit in Hh; assumption. }
    split; intro H; apply I; tauto.
Qed.

Lemma circles_guard : forall shape row col r per,
  lenZ shape <> 2 \/ lenZ col <> lenZ row \/ lenZ r <> lenZ row ->
  dummy_circles true shape row col r per = Throw.
Proof.
  intros shape row col r per H. unfold dummy_circles, assertb.
  destruct (lenZ row =? lenZ col) eqn:E1; [|reflexivity]. cbn [bind].
  destruct (lenZ row =? lenZ r) eqn:E2; [|reflexivity]. cbn [bind].
  destruct (lenZ shape =? 2) eqn:E3; [|reflexivity]. lia.
Qed.

(** ** Random circles *)
Lemma random_small : forall n m per draws, 0 <= n -> 0 <= m -> n < 20 \/ m < 20 ->
  dummy_circles_random true [n; m] per draws = UB.
Proof.
  intros n m per draws Hn Hm H. unfold dummy_circles_random. change (lenZ [n; m] =? 2) with true. cbn [assertb bind].
  assert (twentieth n = 0 \/ twentieth m = 0).
  { unfold twentieth. destruct H; [left|right]; apply Z.div_small; lia. }
  replace (_ || _) with true by lia. reflexivity.
Qed.

Lemma mapM_vget : forall {A} (d : A) (l : list A) k N, (k + N <= length l)%nat ->
  mapM (vget l) (zseq (Z.of_nat k) N) = Ok (firstn N (skipn k l)).
Proof.
  intros A d l k N. revert k. induction N; intros k H; [reflexivity|]. cbn [zseq mapM].
  rewrite (vget_nth l _ d) by (unfold lenZ; lia). cbn [bind]. rewrite Nat2Z.id.
  replace (Z.of_nat k + 1) with (Z.of_nat (S k)) by lia. rewrite IHN by lia. cbn [bind].
  f_equal. clear -H. revert l H. induction k; intros l H.
  - destruct l; cbn in *; [lia|reflexivity].
  - destruct l; cbn [length] in H; [lia|]. cbn [skipn nth]. apply IHk. lia.
Qed.

Lemma nth_zseq_combine : forall {A B} (f : Z * A -> B) N (l : list A) k s da db, (k < N)%nat -> length l = N ->
  nth k (map f (combine (zseq s N) l)) db = f (s + Z.of_nat k, nth k l da).
Proof.
  intros A B f. induction N; intros l k s da db H L; [lia|].
  destruct l as [|a l]; [discriminate|]. cbn [zseq combine map]. destruct k.
  - cbn [nth]. f_equal. f_equal. lia.
  - cbn [nth]. rewrite (IHN l k (s + 1) da db) by (cbn in L; lia). f_equal. f_equal. lia.
Qed.

Lemma in_firstn_draws : forall (l : list draw) N w, In w (firstn N l) -> In w l.
Proof. induction l; intros [|N] w H; cbn in *; try tauto. destruct H; eauto. Qed.

Lemma random_ok : forall asrt n m per draws, 20 <= n -> 20 <= m ->
  n / 20 * (m / 20) <= lenZ draws -> Forall (valid_draw n m) draws ->
  exists out row col r, dummy_circles_random asrt [n; m] per draws = Ok out /\
    on_grid n m row col /\ lenZ r = lenZ row /\
    (forall k, 0 <= k < lenZ r -> 0 <= zn r k /\
       (IZR (zn r k) <= 2 * sqrt (3 / 10 * IZR (n * m) / (PI * IZR (n / 20 * (m / 20)))))%R) /\
    dummy_circles asrt [n; m] row col r per = Ok out.
Proof.
  intros asrt n m per draws Hn Hm HD HV. unfold dummy_circles_random. change (lenZ [n; m] =? 2) with true.
  replace (assertb asrt true) with (Ok tt) by (destruct asrt; reflexivity). cbn [bind].
  assert (1 <= n / 20) by (apply Z.div_le_lower_bound; lia).
  assert (1 <= m / 20) by (apply Z.div_le_lower_bound; lia).
  unfold twentieth. replace (_ || _) with false by lia.
  assert (P : 0 < n / 20 * (m / 20)) by nia. unfold lenZ in HD.
  unfold zrange. rewrite Z.sub_0_r.
  set (N := Z.to_nat (n / 20 * (m / 20))) in *.
  assert (EN : Z.of_nat N = n / 20 * (m / 20)) by (unfold N; lia).
  pose proof (mapM_vget (mkdraw 0 0 0) draws 0 N ltac:(lia)) as E. cbn [skipn] in E. change (Z.of_nat 0) with 0 in E.
  rewrite E. cbn [bind]. set (ws := firstn N draws) in *.
  assert (LW : length ws = N) by (unfold ws; rewrite firstn_length; lia).
  assert (VW : forall k, (k < N)%nat -> valid_draw n m (nth k ws (mkdraw 0 0 0))).
  { intros k Hk. rewrite Forall_forall in HV. apply HV.
    assert (I : In (nth k ws (mkdraw 0 0 0)) ws) by (apply nth_In; lia).
    unfold ws in I. eapply in_firstn_draws. exact I. }
  match goal with |- context [dummy_circles _ _ ?a ?b ?c _] => set (row := a); set (col := b); set (r := c) end.
  assert (LC : forall {B} (f : Z * draw -> B), length (map f (combine (zseq 0 N) ws)) = N).
  { intros. rewrite map_length, combine_length, zseq_length. lia. }
  destruct (circles_ok asrt n m row col r per) as (out & EO & _); try lia.
  { unfold row, col, lenZ. now rewrite !LC. } { unfold row, r, lenZ. now rewrite !LC. }
  exists out, row, col, r. split; [exact EO|]. split; [|split; [unfold row, r, lenZ; now rewrite !LC|split; [|exact EO]]].
  - split; [unfold row, lenZ; rewrite LC; exact EN|]. split; [unfold col, lenZ; rewrite LC; exact EN|].
    intros i j Hi Hj. assert (K : 0 <= i * (m / 20) + j < n / 20 * (m / 20)) by nia.
    assert (K' : (Z.to_nat (i * (m / 20) + j) < N)%nat) by lia.
    destruct (VW _ K') as (V1 & V2 & _).
    destruct (split_index i j (m / 20) Hj) as [D1 D2].
    unfold zn, row, col. rewrite !(nth_zseq_combine _ N ws _ 0 (mkdraw 0 0 0)) by lia.
    rewrite Z.add_0_l, Z2Nat.id by lia. unfold grid_row, grid_col, twentieth. cbn [fst snd].
    rewrite D1, D2. unfold about. lia.
  - intros k Hk. unfold r, lenZ in Hk. rewrite LC in Hk. assert (K' : (Z.to_nat k < N)%nat) by lia.
    destruct (VW _ K') as (_ & _ & V3).
    unfold zn, r. rewrite !(nth_zseq_combine _ N ws _ 0 (mkdraw 0 0 0)) by lia. cbn [fst snd].
    set (u := w_rad _) in *. unfold scaled_radius.
    assert (RS : (IZR (default_radius n m) <= sqrt (3 / 10 * IZR (n * m) / (PI * IZR (n / 20 * (m / 20)))))%R).
    { unfold default_radius, twentieth. apply base_Int_part. }
    assert (R0 : 0 <= default_radius n m).
    { unfold default_radius. match goal with |- context [sqrt ?t] => pose proof (sqrt_pos t) as S0; destruct (base_Int_part (sqrt t)) as [_ B] end.
      assert (IZR (-1) < IZR (Int_part (sqrt (3 / 10 * IZR (n * m) / (PI * IZR (twentieth n * twentieth m))))))%R by lra.
      apply lt_IZR in H1. lia. }
    apply IZR_le in R0 as R0'.
    set (sq := sqrt (3 / 10 * IZR (n * m) / (PI * IZR (n / 20 * (m / 20))))) in *. clearbody sq.
    set (R := default_radius n m) in *. clearbody R u. set (x := (IZR R * 2 * u)%R).
    destruct (base_Int_part x) as [B1 B2]. assert (0 <= x)%R by (unfold x; nra). assert (x <= IZR R * 2)%R by (unfold x; nra).
    assert (IZR (-1) < IZR (Int_part x))%R as G1 by lra. apply lt_IZR in G1.
    split; [lia|lra].
Qed.

Lemma within_length : forall rad a b,
  within rad a b <-> (sqrt (IZR a * IZR a + IZR b * IZR b) <= IZR rad - 1)%R.
Proof.
  intros rad a b. unfold within.
  assert (S : (0 <= IZR a * IZR a + IZR b * IZR b)%R) by nra.
  split.
  - intros [R B]. apply IZR_le in B, R. rewrite plus_IZR, !mult_IZR, minus_IZR in B.
    rewrite <- (sqrt_square (IZR rad - 1)) by lra. now apply sqrt_le_1_alt.
  - intro H. pose proof (sqrt_pos (IZR a * IZR a + IZR b * IZR b)). split.
    + apply le_IZR. lra.
    + apply le_IZR. rewrite plus_IZR, !mult_IZR, minus_IZR.
      rewrite <- (sqrt_sqrt _ S). nra.
Qed.

Lemma random_case : exists out,
  dummy_circles_random true [20; 40] true [mkdraw 0 0 0; mkdraw 19 3 (1 / 2)] = Ok out.
Proof.
  destruct (random_ok true 20 40 true [mkdraw 0 0 0; mkdraw 19 3 (1 / 2)]) as (out & _ & _ & _ & E & _).
  - lia.
  - lia.
  - cbn. lia.
  - apply Forall_cons; [|apply Forall_cons; [|constructor]]; unfold valid_draw; cbn [w_row w_col w_rad];
      change (20 / (2 * (20 / 20))) with 10; change (40 / (2 * (40 / 20))) with 10;
      (split; [lia|split; [lia|lra]]).
  - eauto.
Qed.

Lemma random_refuted : exists n m, 0 < n /\ 0 < m /\
  forall per draws, dummy_circles_random true [n; m] per draws = UB.
Proof. exists 19, 30. split; [lia|]. split; [lia|]. intros. apply random_small; lia. Qed.
