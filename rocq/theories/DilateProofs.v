(** * DilateProofs: [dilate] in terms of padded arrays (proofs only). *)

From Coq Require Import ZArith List Bool Lia.
From Verif Require Import Base BaseLemmas Array3 Array3Lemmas Dilate.
Import ListNotations.
Open Scope Z_scope.

Section Dil.

Variables n0 n1 n2 p0 q0 p1 q1 p2 q2 : Z.
Hypothesis Hn : 1 <= n0 /\ 1 <= n1 /\ 1 <= n2.
Hypothesis Hp : 0 <= p0 /\ 0 <= q0 /\ 0 <= p1 /\ 0 <= q1 /\ 0 <= p2 /\ 0 <= q2.

Definition PP : pads := ((p0, q0), (p1, q1), (p2, q2)).

Definition shp (a : arr Z) : Prop :=
  d0 a = p0 + n0 + q0 /\ d1 a = p1 + n1 + q1 /\ d2 a = p2 + n2 + q2 /\ wfa a.

Definition cell (h i j : Z) : Prop :=
  0 <= h < p0 + n0 + q0 /\ 0 <= i < p1 + n1 + q1 /\ 0 <= j < p2 + n2 + q2.

Definition inner (h i j : Z) : Prop :=
  p0 <= h < p0 + n0 /\ p1 <= i < p1 + n1 /\ p2 <= j < p2 + n2.

Definition w (p n h : Z) : Z := p + (h - p) mod n.

Notation "F @ h , i , j" := (at3 0 F h i j) (at level 9, h at level 9, i at level 9, j at level 9).

Lemma w_inner : forall p n h, p <= h < p + n -> w p n h = h.
Proof. intros. unfold w. rewrite Z.mod_small; lia. Qed.

Lemma w_range : forall p n h, 1 <= n -> p <= w p n h < p + n.
Proof. intros. unfold w. pose proof (Z.mod_pos_bound (h - p) n). lia. Qed.

Lemma w_add : forall p n h, 1 <= n -> w p n (h + n) = w p n h.
Proof.
  intros. unfold w. replace (h + n - p) with (h - p + 1 * n) by lia. rewrite Z.mod_add by lia. auto.
Qed.

Lemma w_sub : forall p n h, 1 <= n -> w p n (h - n) = w p n h.
Proof. intros. rewrite <- (w_add p n (h - n)) by auto. f_equal. lia. Qed.

Lemma inner_cell : forall h i j, inner h i j -> cell h i j.
Proof. unfold inner, cell. lia. Qed.

Lemma w_cell : forall h i j, inner (w p0 n0 h) (w p1 n1 i) (w p2 n2 j).
Proof. intros. unfold inner. pose proof (w_range p0 n0 h). pose proof (w_range p1 n1 i). pose proof (w_range p2 n2 j). lia. Qed.

(** ** The periodic copies *)

Definition same (h i j h' i' j' : Z) : Prop :=
  w p0 n0 h = w p0 n0 h' /\ w p1 n1 i = w p1 n1 i' /\ w p2 n2 j = w p2 n2 j'.

(** Values stay within their class of equivalent cells; nothing is erased. *)
Definition within (G G' : arr Z) : Prop :=
  (forall h i j, cell h i j -> exists h' i' j', cell h' i' j' /\ same h i j h' i' j' /\ at3 0 G' h i j = at3 0 G h' i' j') /\
  (forall h i j, cell h i j -> at3 0 G h i j <> 0 -> at3 0 G' h i j <> 0).

Lemma within_refl : forall G, within G G.
Proof. intros G. split; auto. intros h i j H. exists h, i, j. unfold same. auto. Qed.

Lemma within_trans : forall A B C, within A B -> within B C -> within A C.
Proof.
  intros A B C [H1 H2] [H3 H4]. split; [|intros; apply H4; auto].
  intros h i j H. destruct (H3 h i j H) as (h' & i' & j' & Hc & S1 & E1).
  destruct (H1 h' i' j' Hc) as (h2 & i2 & j2 & Hc2 & S2 & E2). exists h2, i2, j2. split; auto.
  split; [unfold same in *; intuition congruence|congruence].
Qed.

Lemma copy_slab_ok : forall ax t s len G, shp G ->
  0 <= len -> 0 <= t -> t + len <= dim ax G -> 0 <= s -> s + len <= dim ax G ->
  exists G', copy_slab ax t s len G = Ok G' /\ shp G' /\
  forall h i j, cell h i j -> at3 0 G' h i j =
    if (t <=? coord ax h i j) && (coord ax h i j <? t + len)
    then if at_shift ax (s - t) G h i j =? 0 then at3 0 G h i j else at_shift ax (s - t) G h i j
    else at3 0 G h i j.
Proof.
  intros ax t s len G (S0 & S1 & S2 & W) L1 L2 L3 L4 L5. unfold copy_slab.
  replace ((0 <=? len) && (0 <=? t) && (t + len <=? dim ax G) && (0 <=? s) && (s + len <=? dim ax G)) with true
    by (symmetry; rewrite !andb_true_iff; lia).
  eexists. split; [reflexivity|]. split.
  - unfold shp. cbn [d0 d1 d2]. split; [auto|]. split; [auto|]. split; [auto|]. apply tab_wfa; lia.
  - intros h i j (H0 & H1 & H2). rewrite at3_tab by lia. reflexivity.
Qed.

Ltac slab_a V G lem :=
  let h := fresh "h" in let i := fresh "i" in let j := fresh "j" in let HC := fresh "HC" in
  intros h i j HC; rewrite (V h i j HC);
  match goal with |- context [if ?c then _ else _] => destruct c eqn:?Ec end;
  [match goal with |- context [if ?c then _ else _] => destruct c eqn:?Ev end|];
  [exists h, i, j; unfold same; auto| |exists h, i, j; unfold same; auto];
  match goal with E : (_ && _)%bool = true |- _ => apply andb_prop in E; destruct E end; destruct HC as (? & ? & ?);
  match goal with
  | |- context [at3 0 G (h + ?k) i j] => exists (h + k), i, j;
     unfold same; split; [unfold cell; lia|]; split; [|reflexivity]; split; [|auto];
     rewrite <- (lem p0 n0 h) by lia; f_equal; lia
  | |- context [at3 0 G h (i + ?k) j] => exists h, (i + k), j;
     unfold same; split; [unfold cell; lia|]; split; [|reflexivity]; split; [auto|]; split; [|auto];
     rewrite <- (lem p1 n1 i) by lia; f_equal; lia
  | |- context [at3 0 G h i (j + ?k)] => exists h, i, (j + k);
     unfold same; split; [unfold cell; lia|]; split; [|reflexivity]; split; [auto|]; split; [auto|];
     rewrite <- (lem p2 n2 j) by lia; f_equal; lia
  end.

Ltac slab_b V :=
  let h := fresh "h" in let i := fresh "i" in let j := fresh "j" in let HC := fresh "HC" in let Hz := fresh "Hz" in
  intros h i j HC Hz; rewrite (V h i j HC);
  match goal with |- context [if ?c then _ else _] => destruct c eqn:?Ec end;
  [match goal with |- context [if ?c then _ else _] => destruct c eqn:?Ev end|];
  [exact Hz|lia|exact Hz].

Ltac slab_c V G :=
  let h := fresh "h" in let i := fresh "i" in let j := fresh "j" in let HC := fresh "HC" in let Hh := fresh "Hh" in let Hz := fresh "Hz" in
  intros h i j HC Hh Hz; destruct HC as (? & ? & ?);
  rewrite V by (unfold cell; lia);
  match goal with |- context [if ?c then _ else _] => replace c with true by (symmetry; apply andb_true_iff; lia) end;
  match goal with |- (if ?a =? 0 then _ else _) <> 0 => replace a with (at3 0 G h i j) by (f_equal; lia) end;
  destruct (at3 0 G h i j =? 0) eqn:?Ev; lia.

(** Copy along one axis, from above: [t = p], [s = p + n], [len = q]. *)
Lemma step_above : forall ax G, shp G ->
  (let n := match ax with O => n0 | S O => n1 | _ => n2 end in
   let q := match ax with O => q0 | S O => q1 | _ => q2 end in q <= n) ->
  exists G', (if dim ax G <=? 1 then Ok G
              else let (p, q) := pad_of PP ax in copy_slab ax p (dim ax G - q) q G) = Ok G' /\
  shp G' /\ within G G' /\
  match ax with
  | O => forall h i j, cell h i j -> p0 + n0 <= h -> at3 0 G h i j <> 0 -> at3 0 G' (h - n0) i j <> 0
  | S O => forall h i j, cell h i j -> p1 + n1 <= i -> at3 0 G h i j <> 0 -> at3 0 G' h (i - n1) j <> 0
  | _ => forall h i j, cell h i j -> p2 + n2 <= j -> at3 0 G h i j <> 0 -> at3 0 G' h i (j - n2) <> 0
  end.
Proof.
  intros ax G HS Hq. pose proof HS as (S0 & S1 & S2 & W).
  destruct (dim ax G <=? 1) eqn:E.
  - exists G. split; auto. split; auto. split; [apply within_refl|].
    destruct ax as [|[|ax]]; cbn [dim] in E; intros h i j (C0 & C1 & C2) Hh; lia.
  - destruct ax as [|[|ax]]; cbn [pad_of PP dim] in *; unfold PP;
    (edestruct (fun ax t s len => copy_slab_ok ax t s len G HS) as (G' & EG & HG & V);
     [ | | | | | exists G'; split; [exact EG|]; split; [exact HG|] ]; cbn [dim]; try lia);
    cbn [coord at_shift] in V; (split; [split; [slab_a V G w_add|slab_b V]|slab_c V G]).
Qed.

(** Copy along one axis, from below: [t = n], [s = 0], [len = p]. *)
Lemma step_below : forall ax G, shp G ->
  (let n := match ax with O => n0 | S O => n1 | _ => n2 end in
   let p := match ax with O => p0 | S O => p1 | _ => p2 end in p <= n) ->
  exists G', (if dim ax G <=? 1 then Ok G
              else let (p, q) := pad_of PP ax in copy_slab ax (dim ax G - q - p) 0 p G) = Ok G' /\
  shp G' /\ within G G' /\
  match ax with
  | O => forall h i j, cell h i j -> h < p0 -> at3 0 G h i j <> 0 -> at3 0 G' (h + n0) i j <> 0
  | S O => forall h i j, cell h i j -> i < p1 -> at3 0 G h i j <> 0 -> at3 0 G' h (i + n1) j <> 0
  | _ => forall h i j, cell h i j -> j < p2 -> at3 0 G h i j <> 0 -> at3 0 G' h i (j + n2) <> 0
  end.
Proof.
  intros ax G HS Hq. pose proof HS as (S0 & S1 & S2 & W).
  destruct (dim ax G <=? 1) eqn:E.
  - exists G. split; auto. split; auto. split; [apply within_refl|].
    destruct ax as [|[|ax]]; cbn [dim] in E; intros h i j (C0 & C1 & C2) Hh; lia.
  - destruct ax as [|[|ax]]; cbn [pad_of PP dim] in *; unfold PP;
    (edestruct (fun ax t s len => copy_slab_ok ax t s len G HS) as (G' & EG & HG & V);
     [ | | | | | exists G'; split; [exact EG|]; split; [exact HG|] ]; cbn [dim]; try lia);
    cbn [coord at_shift] in V; (split; [split; [slab_a V G w_sub|slab_b V]|slab_c V G]).
Qed.

Definition fits : Prop := p0 <= n0 /\ q0 <= n0 /\ p1 <= n1 /\ q1 <= n1 /\ p2 <= n2 /\ q2 <= n2.

Lemma w_above : forall p n q h, 1 <= n -> q <= n -> p + n <= h < p + n + q -> w p n h = h - n.
Proof. intros. rewrite <- w_sub by auto. apply w_inner. lia. Qed.

Lemma w_below : forall p n h, 1 <= n -> p <= n -> 0 <= h < p -> w p n h = h + n.
Proof. intros. rewrite <- w_add by auto. apply w_inner. lia. Qed.

Lemma periodic_copy_ok : forall G, fits -> shp G -> exists G', periodic_copy PP G = Ok G' /\ shp G' /\ within G G' /\
  forall h i j, cell h i j -> at3 0 G h i j <> 0 -> at3 0 G' (w p0 n0 h) (w p1 n1 i) (w p2 n2 j) <> 0.
Proof.
  intros G (F0 & F1 & F2 & F3 & F4 & F5) HS. unfold periodic_copy, above_to_below, below_to_above.
  destruct (step_above 0 G HS) as (A0 & EA0 & SA0 & WA0 & MA0); [cbn; lia|].
  destruct (step_above 1 A0 SA0) as (A1 & EA1 & SA1 & WA1 & MA1); [cbn; lia|].
  destruct (step_above 2 A1 SA1) as (A2 & EA2 & SA2 & WA2 & MA2); [cbn; lia|].
  destruct (step_below 0 A2 SA2) as (B0 & EB0 & SB0 & WB0 & MB0); [cbn; lia|].
  destruct (step_below 1 B0 SB0) as (B1 & EB1 & SB1 & WB1 & MB1); [cbn; lia|].
  destruct (step_below 2 B1 SB1) as (B2 & EB2 & SB2 & WB2 & MB2); [cbn; lia|].
  cbn [foldM]. rewrite EA0, bind_Ok, EA1, bind_Ok, EA2, !bind_Ok, EB0, bind_Ok, EB1, bind_Ok, EB2, bind_Ok.
  exists B2. split; auto. split; auto.
  split; [repeat (eapply within_trans; [eassumption|]); apply within_refl|].
  intros h i j (C0 & C1 & C2) Hz.
  destruct WA0 as [_ WA0], WA1 as [_ WA1], WA2 as [_ WA2], WB0 as [_ WB0], WB1 as [_ WB1], WB2 as [_ WB2].
  set (h1 := if p0 + n0 <=? h then h - n0 else h). set (i1 := if p1 + n1 <=? i then i - n1 else i).
  set (j1 := if p2 + n2 <=? j then j - n2 else j).
  assert (Z0 : at3 0 A0 h1 i j <> 0).
  { unfold h1. destruct (p0 + n0 <=? h) eqn:E; [apply MA0|apply WA0]; unfold cell; auto; lia. }
  assert (Z1 : at3 0 A1 h1 i1 j <> 0).
  { unfold i1. destruct (p1 + n1 <=? i) eqn:E; [apply MA1|apply WA1]; unfold cell, h1; auto; destruct (p0 + n0 <=? h) eqn:?; lia. }
  assert (Z2 : at3 0 A2 h1 i1 j1 <> 0).
  { unfold j1. destruct (p2 + n2 <=? j) eqn:E; [apply MA2|apply WA2]; unfold cell, h1, i1; auto;
    destruct (p0 + n0 <=? h) eqn:?; destruct (p1 + n1 <=? i) eqn:?; lia. }
  assert (H1 : 0 <= h1 < p0 + n0) by (unfold h1; destruct (p0 + n0 <=? h) eqn:?; lia).
  assert (I1 : 0 <= i1 < p1 + n1) by (unfold i1; destruct (p1 + n1 <=? i) eqn:?; lia).
  assert (J1 : 0 <= j1 < p2 + n2) by (unfold j1; destruct (p2 + n2 <=? j) eqn:?; lia).
  assert (Wh : w p0 n0 h = w p0 n0 h1) by (unfold h1; destruct (p0 + n0 <=? h) eqn:?; [rewrite w_sub; lia|auto]).
  assert (Wi : w p1 n1 i = w p1 n1 i1) by (unfold i1; destruct (p1 + n1 <=? i) eqn:?; [rewrite w_sub; lia|auto]).
  assert (Wj : w p2 n2 j = w p2 n2 j1) by (unfold j1; destruct (p2 + n2 <=? j) eqn:?; [rewrite w_sub; lia|auto]).
  rewrite Wh, Wi, Wj. clearbody h1 i1 j1. clear Wh Wi Wj Z0 Z1 Hz C0 C1 C2.
  set (h2 := if h1 <? p0 then h1 + n0 else h1). set (i2 := if i1 <? p1 then i1 + n1 else i1).
  set (j2 := if j1 <? p2 then j1 + n2 else j1).
  assert (Y0 : at3 0 B0 h2 i1 j1 <> 0).
  { unfold h2. destruct (h1 <? p0) eqn:E; [apply MB0|apply WB0]; unfold cell; auto; lia. }
  assert (Y1 : at3 0 B1 h2 i2 j1 <> 0).
  { unfold i2. destruct (i1 <? p1) eqn:E; [apply MB1|apply WB1]; unfold cell, h2; auto; destruct (h1 <? p0) eqn:?; lia. }
  assert (Y2 : at3 0 B2 h2 i2 j2 <> 0).
  { unfold j2. destruct (j1 <? p2) eqn:E; [apply MB2|apply WB2]; unfold cell, h2, i2; auto;
    destruct (h1 <? p0) eqn:?; destruct (i1 <? p1) eqn:?; lia. }
  assert (w p0 n0 h1 = h2) as -> by (unfold h2; destruct (h1 <? p0) eqn:?; [apply w_below; lia|apply w_inner; lia]).
  assert (w p1 n1 i1 = i2) as -> by (unfold i2; destruct (i1 <? p1) eqn:?; [apply w_below; lia|apply w_inner; lia]).
  assert (w p2 n2 j1 = j2) as -> by (unfold j2; destruct (j1 <? p2) eqn:?; [apply w_below; lia|apply w_inner; lia]).
  exact Y2.
Qed.

(** ** One iteration *)

Variable K : arr Z.
Variable iterations : list Z.
Variable it : Z -> Z.

(** Cell (h, i, j) spreads its label to (a, b, c). *)
Definition src (F : arr Z) (iter : Z) (h i j a b c : Z) : Prop :=
  at3 0 F h i j <> 0 /\ iter < it (at3 0 F h i j) /\
  h - p0 <= a <= h + q0 /\ i - p1 <= b <= i + q1 /\ j - p2 <= c <= j + q2 /\
  at3 0 K (a - (h - p0)) (b - (i - p1)) (c - (j - p2)) = 1.

Definition spread (F : arr Z) (iter : Z) (L : list (Z * Z * Z)) (G : arr Z) : Prop :=
  forall a b c, cell a b c ->
    (at3 0 F a b c <> 0 -> at3 0 G a b c = at3 0 F a b c) /\
    (at3 0 F a b c = 0 ->
       (at3 0 G a b c = 0 /\ forall h i j, In (h, i, j) L -> ~ src F iter h i j a b c) \/
       (exists h i j, In (h, i, j) L /\ src F iter h i j a b c /\ at3 0 G a b c = at3 0 F h i j)).

Lemma dil_fold_ok : forall F iter L, shp F ->
  (forall h i j, In (h, i, j) L -> inner h i j) ->
  (forall h i j, In (h, i, j) L -> at3 0 F h i j <> 0 -> iter_of iterations (at3 0 F h i j) = Ok (it (at3 0 F h i j))) ->
  exists G, foldM (dil_point iter iterations K F PP) L F = Ok G /\ shp G /\ spread F iter L G.
Proof.
  intros F iter L HF. induction L as [|x L IH] using rev_ind; intros HI HT.
  - exists F. split; auto. split; auto. intros a b c Hc. split; [auto|]. intros Hz. left. split; [auto|].
    intros h i j Hin; simpl in Hin; tauto.
  - destruct IH as (G & E & HG & HSp).
    { intros; apply HI; apply in_or_app; auto. } { intros; apply HT; auto; apply in_or_app; auto. }
    rewrite foldM_app, E, bind_Ok. cbn [foldM]. destruct x as [[h i] j].
    assert (Hin : inner h i j) by (apply HI; apply in_or_app; simpl; auto).
    assert (Hc0 : cell h i j) by (apply inner_cell; auto).
    pose proof HF as (S0 & S1 & S2 & W).
    assert (Pt : exists G', dil_point iter iterations K F PP G (h, i, j) = Ok G' /\ shp G' /\
       forall a b c, cell a b c ->
         (at3 0 F a b c = 0 -> src F iter h i j a b c -> at3 0 G' a b c = at3 0 F h i j) /\
         ((at3 0 F a b c <> 0 \/ ~ src F iter h i j a b c) -> at3 0 G' a b c = at3 0 G a b c)).
    { unfold dil_point, PP. rewrite (aget_ok _ 0) by (auto; unfold inr, cell in *; lia). rewrite bind_Ok.
      destruct (at3 0 F h i j =? 0) eqn:Ez.
      - exists G. split; auto. split; auto. intros a b c Hc. split; auto. intros _ (X & _). lia.
      - rewrite HT by (try (apply in_or_app; simpl; auto); lia). rewrite bind_Ok.
        destruct (it (at3 0 F h i j) <=? iter) eqn:Ei.
        + exists G. split; auto. split; auto. intros a b c Hc. split; auto. intros _ (_ & X & _). lia.
        + assert (inb F (h - p0) (i - p1) (j - p2) && inb F (h + q0) (i + q1) (j + q2) = true) as ->.
          { apply andb_true_iff. rewrite !inb_inr. unfold inr, inner in *. lia. }
          pose proof HG as (T0 & T1 & T2 & WG).
          eexists. split; [reflexivity|]. split.
          { unfold shp. cbn [d0 d1 d2]. split; [auto|]. split; [auto|]. split; [auto|]. apply tab_wfa; lia. }
          intros a b c (C0 & C1 & C2). rewrite at3_tab by lia.
          match goal with |- context [if ?c then _ else _] => destruct c eqn:Ec end.
          * rewrite !andb_true_iff in Ec.
            match goal with |- context [if ?c then _ else _] => destruct c eqn:Ek end.
            -- rewrite andb_true_iff in Ek. split; auto. intros [X|X]; [lia|]. exfalso. apply X. unfold src.
               split; [lia|]. split; [lia|]. split; [lia|]. split; [lia|]. split; [lia|]. lia.
            -- rewrite andb_false_iff in Ek. split; auto. intros Hz (_ & _ & _ & _ & _ & X). lia.
          * split; auto. intros _ (_ & _ & X1 & X2 & X3 & _). rewrite !andb_false_iff in Ec. lia. }
    destruct Pt as (G' & E' & HG' & V). rewrite E', bind_Ok. exists G'. split; auto. split; auto.
    intros a b c Hc. destruct (HSp a b c Hc) as [P1 P2]. destruct (V a b c Hc) as [V1 V2]. split.
    + intros Hz. rewrite V2 by auto. auto.
    + intros Hz.
      assert (D : src F iter h i j a b c \/ ~ src F iter h i j a b c).
      { unfold src. destruct (Z.eq_dec (at3 0 F h i j) 0); [right; tauto|].
        destruct (Z_lt_dec iter (it (at3 0 F h i j))); [|right; tauto].
        destruct (Z_le_dec (h - p0) a), (Z_le_dec a (h + q0)), (Z_le_dec (i - p1) b), (Z_le_dec b (i + q1)),
          (Z_le_dec (j - p2) c), (Z_le_dec c (j + q2)); try (right; lia).
        destruct (Z.eq_dec (at3 0 K (a - (h - p0)) (b - (i - p1)) (c - (j - p2))) 1); [left; auto 10|right; tauto]. }
      destruct D as [D|D].
      * right. exists h, i, j. split; [apply in_or_app; simpl; auto|]. split; auto.
      * rewrite V2 by auto. destruct (P2 Hz) as [[X1 X2]|(h' & i' & j' & X1 & X2 & X3)].
        -- left. split; auto. intros h' i' j' Hin' S. apply in_app_or in Hin'. destruct Hin' as [Hin'|[Hin'|[]]].
           ++ eapply X2; eauto.
           ++ injection Hin' as -> -> ->. auto.
        -- right. exists h', i', j'. split; [apply in_or_app; auto|]. auto.
Qed.

Lemma dil_fold_valid : forall F iter L G G', shp F ->
  (forall h i j, In (h, i, j) L -> inner h i j) ->
  foldM (dil_point iter iterations K F PP) L G = Ok G' ->
  forall h i j, In (h, i, j) L -> at3 0 F h i j <> 0 -> exists n, iter_of iterations (at3 0 F h i j) = Ok n.
Proof.
  intros F iter L. induction L as [|[[h0 i0] j0] L IH]; intros G G' HF HI E h i j Hin Hz; [simpl in Hin; tauto|].
  cbn [foldM] in E. apply bind_ok in E. destruct E as (G1 & E1 & E2).
  destruct Hin as [Hin|Hin].
  - injection Hin as -> -> ->. unfold dil_point, PP in E1.
    assert (cell h i j) by (apply inner_cell; apply HI; simpl; auto).
    destruct HF as (S0 & S1 & S2 & W).
    rewrite (aget_ok _ 0) in E1 by (auto; unfold inr, cell in *; lia). rewrite bind_Ok in E1.
    replace (at3 0 F h i j =? 0) with false in E1 by lia. apply bind_ok in E1. destruct E1 as (n & E1 & _). eauto.
  - eapply (IH G1 G'); eauto. intros; apply HI; simpl; auto.
Qed.

Definition points (F : arr Z) := loop3 p0 (d0 F - q0) p1 (d1 F - q1) p2 (d2 F - q2).

Lemma points_In : forall F h i j, shp F -> (In (h, i, j) (points F) <-> inner h i j).
Proof. intros F h i j (S0 & S1 & S2 & _). unfold points. rewrite loop3_In, S0, S1, S2. unfold inner. lia. Qed.

(** ** The invariant over the iterations *)

Variable per : bool.
Variable ini : Z -> Z -> Z -> Z.

Hypothesis Hfit : per = true -> fits.
Hypothesis Hval : forall h i j, inner h i j -> ini h i j <> 0 ->
  iter_of iterations (ini h i j) = Ok (it (ini h i j)) /\ 0 <= it (ini h i j).

(** One kernel step between image cells. *)
Definition st3 (h i j a' b' c' : Z) : Prop :=
  inner a' b' c' /\ exists a b c,
  h - p0 <= a <= h + q0 /\ i - p1 <= b <= i + q1 /\ j - p2 <= c <= j + q2 /\
  at3 0 K (a - (h - p0)) (b - (i - p1)) (c - (j - p2)) = 1 /\
  if per then a' = w p0 n0 a /\ b' = w p1 n1 b /\ c' = w p2 n2 c else a' = a /\ b' = b /\ c' = c.

Inductive rch (l : Z) : Z -> Z -> Z -> Z -> Prop :=
| rch_base : forall k h i j, 0 <= k -> inner h i j -> ini h i j = l -> rch l k h i j
| rch_step : forall k h i j a b c, rch l k h i j -> st3 h i j a b c -> rch l (k + 1) a b c.

Lemma rch_inner : forall l k h i j, rch l k h i j -> inner h i j.
Proof. intros l k h i j H. destruct H; auto. destruct H0; auto. Qed.

Lemma rch_nonneg : forall l k h i j, rch l k h i j -> 0 <= k.
Proof. intros l k h i j H. induction H; lia. Qed.

Lemma rch_mono : forall l k h i j, rch l k h i j -> forall k', k <= k' -> rch l k' h i j.
Proof.
  intros l k h i j H. induction H; intros k' Hk.
  - apply rch_base; auto; lia.
  - replace k' with (k' - 1 + 1) by lia. eapply rch_step; eauto. apply IHrch. lia.
Qed.

Lemma rch_label : forall l k h i j, rch l k h i j -> exists h' i' j', inner h' i' j' /\ ini h' i' j' = l.
Proof. intros l k h i j H. induction H; eauto. Qed.

Definition dom (h i j : Z) : Prop := if per then cell h i j else inner h i j.

Lemma inner_dom : forall h i j, inner h i j -> dom h i j.
Proof using Hp. clear Hfit. intros. unfold dom. destruct per; auto using inner_cell. Qed.

Lemma dom_cell : forall h i j, dom h i j -> cell h i j.
Proof using Hp. clear Hfit. intros h i j. unfold dom. destruct per; auto using inner_cell. Qed.

Record inv (iter : Z) (F : arr Z) : Prop := {
  v_shp : shp F;
  v_rch : forall h i j, dom h i j -> at3 0 F h i j <> 0 ->
    rch (at3 0 F h i j) (Z.min iter (it (at3 0 F h i j))) (w p0 n0 h) (w p1 n1 i) (w p2 n2 j);
  v_ini : forall h i j, dom h i j -> ini (w p0 n0 h) (w p1 n1 i) (w p2 n2 j) <> 0 ->
    at3 0 F h i j = ini (w p0 n0 h) (w p1 n1 i) (w p2 n2 j);
  v_img : per = true -> forall h i j, cell h i j -> at3 0 F h i j <> 0 ->
    at3 0 F (w p0 n0 h) (w p1 n1 i) (w p2 n2 j) <> 0;
  v_all : (forall h i j, inner h i j -> ini h i j <> 0 -> iter <= it (ini h i j)) ->
    forall l h i j, l <> 0 -> rch l iter h i j -> at3 0 F h i j <> 0 }.

Lemma w3_inner : forall h i j, inner h i j -> w p0 n0 h = h /\ w p1 n1 i = i /\ w p2 n2 j = j.
Proof. intros h i j (A & B & C). rewrite !w_inner by auto. auto. Qed.

Lemma valid_label : forall iter F h i j, inv iter F -> inner h i j -> at3 0 F h i j <> 0 ->
  iter_of iterations (at3 0 F h i j) = Ok (it (at3 0 F h i j)) /\ 0 <= it (at3 0 F h i j).
Proof.
  intros iter F h i j HV Hi Hz. pose proof (v_rch _ _ HV h i j (inner_dom _ _ _ Hi) Hz) as R.
  apply rch_label in R. destruct R as (h' & i' & j' & Hi' & E). rewrite <- E. apply Hval; auto. congruence.
Qed.

Lemma rch_src : forall iter F h i j a b c, 0 <= iter -> inv iter F -> inner h i j -> src F iter h i j a b c ->
  dom a b c -> rch (at3 0 F h i j) (Z.min (iter + 1) (it (at3 0 F h i j))) (w p0 n0 a) (w p1 n1 b) (w p2 n2 c).
Proof.
  intros iter F h i j a b c H0 HV Hi (S1 & S2 & S3 & S4 & S5 & S6) Hd.
  pose proof (v_rch _ _ HV h i j (inner_dom _ _ _ Hi) S1) as R.
  destruct (w3_inner h i j Hi) as (E1 & E2 & E3). rewrite E1, E2, E3 in R.
  set (l := at3 0 F h i j) in *. apply rch_mono with (k := Z.min iter (it l) + 1); [|lia].
  eapply rch_step; [exact R|]. split; [apply w_cell|]. exists a, b, c. repeat (split; [auto; fail|]).
  destruct per eqn:Eper; auto. unfold dom in Hd. rewrite Eper in Hd. apply w3_inner; auto.
Qed.

Lemma iter_ok : forall iter F, 0 <= iter -> inv iter F ->
  exists F', dil_iter per iterations K PP F iter = Ok F' /\ inv (iter + 1) F' /\
    (per = false -> forall h i j, inner h i j -> at3 0 F h i j <> 0 -> at3 0 F' h i j = at3 0 F h i j).
Proof.
  intros iter F H0 HV. pose proof (v_shp _ _ HV) as HS. unfold dil_iter, PP.
  change ((p0, q0), (p1, q1), (p2, q2)) with PP. fold (points F).
  destruct (dil_fold_ok F iter (points F) HS) as (G & EG & SG & SpG).
  { intros h i j Hin. apply (points_In F h i j HS) in Hin. auto. }
  { intros h i j Hin Hz. apply (points_In F h i j HS) in Hin. eapply valid_label; eauto. }
  rewrite EG, bind_Ok.
  (* facts about G *)
  assert (G1 : forall h i j, dom h i j -> at3 0 G h i j <> 0 ->
    rch (at3 0 G h i j) (Z.min (iter + 1) (it (at3 0 G h i j))) (w p0 n0 h) (w p1 n1 i) (w p2 n2 j)).
  { intros h i j Hd Hz. destruct (SpG h i j (dom_cell _ _ _ Hd)) as [A B].
    destruct (Z.eq_dec (at3 0 F h i j) 0) as [Ez|Ez].
    - destruct (B Ez) as [[X _]|(a & b & c & Hin & Hs & E)]; [congruence|]. rewrite E.
      apply (points_In F a b c HS) in Hin. apply rch_src; auto.
    - rewrite (A Ez). eapply rch_mono; [apply (v_rch _ _ HV); auto|]. lia. }
  assert (G2 : forall h i j, dom h i j -> ini (w p0 n0 h) (w p1 n1 i) (w p2 n2 j) <> 0 ->
    at3 0 G h i j = ini (w p0 n0 h) (w p1 n1 i) (w p2 n2 j)).
  { intros h i j Hd Hz. destruct (SpG h i j (dom_cell _ _ _ Hd)) as [A _].
    pose proof (v_ini _ _ HV h i j Hd Hz) as E. rewrite A by congruence. auto. }
  assert (G4 : (forall h i j, inner h i j -> ini h i j <> 0 -> iter + 1 <= it (ini h i j)) ->
    forall l h i j, l <> 0 -> rch l (iter + 1) h i j ->
    exists a b c, cell a b c /\ at3 0 G a b c <> 0 /\
      if per then w p0 n0 a = h /\ w p1 n1 b = i /\ w p2 n2 c = j else a = h /\ b = i /\ c = j).
  { intros Hit l h i j Hl R. inversion R; subst.
    - exists h, i, j. destruct (w3_inner h i j H1) as (E1 & E2 & E3). split; [apply inner_cell; auto|]. split.
      + rewrite G2; rewrite ?E1, ?E2, ?E3; auto. apply inner_dom; auto.
      + destruct per; auto.
    - assert (Ek : k = iter) by lia. subst k. clear R.
      assert (Fz : at3 0 F h0 i0 j0 <> 0).
      { eapply (v_all _ _ HV); eauto. intros x y z Hx Hz. specialize (Hit x y z Hx Hz). lia. }
      destruct H2 as (Hin & a & b & c & X1 & X2 & X3 & X4 & X5).
      pose proof (rch_inner _ _ _ _ _ H1) as Hin0.
      assert (Hc : cell a b c) by (unfold cell, inner in *; lia).
      exists a, b, c. split; auto. split.
      + destruct (SpG a b c Hc) as [A B]. destruct (Z.eq_dec (at3 0 F a b c) 0) as [Ez|Ez]; [|rewrite A; auto].
        destruct (B Ez) as [[_ X]|(x & y & z & _ & (Xz & _) & E)]; [|congruence].
        exfalso. apply (X h0 i0 j0); [apply points_In; auto|]. unfold src. split; auto. split; [|auto 10].
        pose proof (v_rch _ _ HV h0 i0 j0 (inner_dom _ _ _ Hin0) Fz) as R. apply rch_label in R.
        destruct R as (x & y & z & Hx & Ex). rewrite <- Ex. rewrite <- Ex in Fz. specialize (Hit x y z Hx Fz). lia.
      + destruct per; intuition. }
  assert (Dp : per = true \/ per = false) by (destruct per; auto).
  destruct Dp as [Eper|Eper]; rewrite Eper in G4 |- *.
  - destruct (periodic_copy_ok G (Hfit Eper) SG) as (F' & EF & SF & [WF1 WF2] & MF). exists F'. split; auto.
    split; [|discriminate]. constructor; auto.
    + intros h i j Hd Hz. destruct (WF1 h i j (dom_cell _ _ _ Hd)) as (h' & i' & j' & Hc & (S1 & S2 & S3) & E).
      rewrite E in *. rewrite S1, S2, S3. apply G1; auto. unfold dom. rewrite Eper. auto.
    + intros h i j Hd Hz. destruct (WF1 h i j (dom_cell _ _ _ Hd)) as (h' & i' & j' & Hc & (S1 & S2 & S3) & E).
      rewrite E. rewrite S1, S2, S3 in *. apply G2; auto. unfold dom. rewrite Eper. auto.
    + intros _ h i j Hd Hz. destruct (WF1 h i j Hd) as (h' & i' & j' & Hc & (S1 & S2 & S3) & E).
      rewrite S1, S2, S3. apply MF; auto. congruence.
    + intros Hit l h i j Hl R. destruct (G4 Hit l h i j Hl R) as (a & b & c & Hc & Hz & <- & <- & <-). auto.
  - exists G. split; auto. split.
    + constructor; auto; [congruence|].
      intros Hit l h i j Hl R. destruct (G4 Hit l h i j Hl R) as (a & b & c & Hc & Hz & -> & -> & ->). auto.
    + intros _ h i j Hi Hz. destruct (SpG h i j (inner_cell _ _ _ Hi)) as [A _]. auto.
Qed.

Lemma iters_ok : forall n F, 0 <= n -> inv 0 F ->
  exists F', foldM (dil_iter per iterations K PP) (zrange 0 n) F = Ok F' /\ inv n F'.
Proof.
  intros n F Hn0 HV. unfold zrange. rewrite Z.sub_0_r. rewrite <- (Z2Nat.id n) by auto.
  rewrite Nat2Z.id. induction (Z.to_nat n) as [|m IH].
  - exists F. split; auto.
  - destruct IH as (F1 & E1 & V1). rewrite zseq_S, foldM_app, E1, bind_Ok. cbn [foldM]. rewrite Z.add_0_l.
    destruct (iter_ok (Z.of_nat m) F1) as (F2 & E2 & V2 & _); [lia|auto|]. rewrite E2, bind_Ok.
    exists F2. split; auto. replace (Z.of_nat (S m)) with (Z.of_nat m + 1) by lia. auto.
Qed.

End Dil.
