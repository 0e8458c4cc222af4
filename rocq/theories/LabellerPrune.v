(** * LabellerPrune: intermediate calls of prune do not matter *)

From Coq Require Import ZArith List Bool Lia Sorting.Sorted.
From Verif Require Import Base BaseLemmas Cluster SpecCluster ClusterInv ClusterAbs ClusterRefine ClusterRun ClusterGeom
  ClusterMain LabellerMoved SpecLabellerPrune.
Import ListNotations.
Open Scope Z_scope.

(** ** The label a pixel gets *)

Lemma label_value : forall N g s p, Inv N s -> N = zprod (g_shape g) -> nb_ok g -> 0 <= p < N ->
  forall s1, label_impl g s p = Ok s1 ->
  c_label s1 = upd (Z.to_nat p) (match near (nb g p) (rep s) with [] => c_new s | _ => zmin (near (nb g p) (rep s)) end) (c_label s).
Proof.
  intros N g s p HI HN Hok Hp s1 E.
  change (label_impl g s p) with (conn <- connected_of g s p ;; choose s p conn) in E.
  rewrite connected_of_ok with (N := N) in E by auto. rewrite bind_Ok, choose_unique in E.
  pose proof (iv_len _ _ HI) as HL. remember (near (nb g p) (rep s)) as C eqn:EC. clear EC.
  destruct (unique C) as [|u0 [|u1 U]] eqn:EU; unfold choose_set in E.
  - assert (C = []) as ->. { destruct C as [|a C]; auto. exfalso. assert (H : In a (unique (a :: C))) by (apply unique_In; simpl; auto). rewrite EU in H. destruct H. }
    rewrite set_label_ok in E by lia. rewrite bind_Ok in E.
    apply (f_equal (fun r => match r with Ok x => x | _ => s1 end)) in E. subst s1. reflexivity.
  - destruct C as [|a C]; [discriminate|]. rewrite <- (sorted_head_min _ _ _ EU).
    rewrite set_label_ok in E by lia.
    apply (f_equal (fun r => match r with Ok x => x | _ => s1 end)) in E. subst s1. reflexivity.
  - destruct C as [|a C]; [discriminate|]. rewrite <- (sorted_head_min _ _ _ EU).
    apply bind_inv in E. destruct E as ([s2 t] & E2 & E).
    destruct (merge_same _ s s s2 t ltac:(repeat split) E2) as (_ & _ & _ & L2 & _).
    assert (t = u0).
    { unfold merge in E2. apply bind_inv in E2. destruct E2 as (s3 & _ & E2). congruence. }
    subst t. rewrite set_label_ok in E by (rewrite L2; lia). rewrite bind_Ok in E.
    apply (f_equal (fun r => match r with Ok x => x | _ => s1 end)) in E. subst s1. cbn [c_label]. rewrite L2. reflexivity.
Qed.

(** ** States with the same labels but for their names, in the same order *)

Definition val (s : st) (x : bool * Z) : Z := if fst x then zn (rep s) (snd x) else zn (c_label s) (snd x).

Definition iso (N : Z) (s s' : st) : Prop :=
  c_nmerge s' = c_nmerge s /\
  (forall x y, 0 <= snd x < N -> 0 <= snd y < N -> (val s x < val s y <-> val s' x < val s' y)) /\
  (forall x, 0 <= snd x < N -> (val s x = 0 <-> val s' x = 0)).

Lemma iso_refl : forall N s, iso N s s.
Proof. intros. repeat split; auto. Qed.

Lemma iso_sym : forall N s s', iso N s s' -> iso N s' s.
Proof. intros N s s' (A & B & C). split; [auto|]. split; [intros x y Hx Hy; symmetry; auto|intros x Hx; symmetry; auto]. Qed.

Lemma iso_trans : forall N a b c, iso N a b -> iso N b c -> iso N a c.
Proof.
  intros N a b c (A & B & C) (A' & B' & C'). split; [congruence|]. split; intros; [rewrite B, B'; tauto|rewrite C, C'; tauto].
Qed.

Lemma iso_eq : forall N s s' x y, iso N s s' -> 0 <= snd x < N -> 0 <= snd y < N -> (val s x = val s y <-> val s' x = val s' y).
Proof.
  intros N s s' x y (_ & B & _) Hx Hy. pose proof (B x y Hx Hy). pose proof (B y x Hy Hx). lia.
Qed.

Lemma val_bound : forall N s x, Inv N s -> 0 <= snd x < N -> 0 <= val s x < c_new s.
Proof.
  intros N s [b p] HI Hp. cbn [snd] in *. unfold val. cbn [fst snd]. destruct b.
  - pose proof (ai_rng _ _ (Inv_AI _ _ HI) p Hp) as R. cbn [fst snd] in R. lia.
  - apply (iv_lab _ _ HI p Hp).
Qed.

Lemma near_none : forall nbs rp, near nbs rp = [] <-> forall c, In c nbs -> zn rp c = 0.
Proof.
  intros nbs rp. split.
  - intros E c Hc. destruct (Z.eq_dec (zn rp c) 0); auto. exfalso.
    assert (H : In (zn rp c) (near nbs rp)) by (apply near_In; split; eauto). rewrite E in H. destruct H.
  - intros H. destruct (near nbs rp) as [|a l] eqn:E; auto. exfalso.
    assert (X : In a (near nbs rp)) by (rewrite E; simpl; auto). apply near_In in X. destruct X as (Ha & c & Hc & Ec).
    rewrite H in Ec; auto.
Qed.

Lemma a_nm_iff : forall nbs rp, (a_nm nbs rp = 0 \/ a_nm nbs rp = 1) /\
  (a_nm nbs rp = 0 <-> forall c d, In c nbs -> In d nbs -> zn rp c <> 0 -> zn rp d <> 0 -> zn rp c = zn rp d).
Proof.
  intros nbs rp. unfold a_nm. pose proof (unique_In) as UI. pose proof (unique_sorted (near nbs rp)) as US.
  assert (HI : forall c, In c nbs -> zn rp c <> 0 -> In (zn rp c) (unique (near nbs rp))).
  { intros c Hc Hn. apply UI, near_In. split; eauto. }
  assert (HO : forall r, In r (unique (near nbs rp)) -> exists c, In c nbs /\ zn rp c = r /\ r <> 0).
  { intros r Hr. apply UI, near_In in Hr. destruct Hr as (Hn & c & Hc & E). eauto. }
  destruct (unique (near nbs rp)) as [|a [|b U]]; (split; [auto|]); (split; [|]); intros H; auto.
  - intros c d Hc _ Hn. destruct (HI c Hc Hn).
  - intros c d Hc Hd Hn Hm. destruct (HI c Hc Hn) as [<-|[]]. destruct (HI d Hd Hm) as [<-|[]]. auto.
  - discriminate.
  - exfalso. destruct (HO a) as (c & Hc & Ec & Na); [simpl; auto|]. destruct (HO b) as (d & Hd & Ed & Nb); [simpl; auto|].
    pose proof (H c d Hc Hd ltac:(lia) ltac:(lia)).
    apply StronglySorted_inv in US. destruct US as [_ F]. apply Forall_inv in F. lia.
Qed.

Section Iso.

Variables (g : cfg) (N : Z).
Hypothesis HW : wf g.
Hypothesis HN : N = zprod (g_shape g).

Lemma map_iso : forall s s' s1 s1' (h : bool * Z -> bool * Z), iso N s s' -> c_nmerge s1' = c_nmerge s1 ->
  (forall x, 0 <= snd x < N -> 0 <= snd (h x) < N /\ val s1 x = val s (h x) /\ val s1' x = val s' (h x)) -> iso N s1 s1'.
Proof.
  intros s s' s1 s1' h (_ & B & C) HM H. split; [exact HM|]. split.
  - intros x y Hx Hy. destruct (H x Hx) as (Rx & -> & ->). destruct (H y Hy) as (Ry & -> & ->). auto.
  - intros x Hx. destruct (H x Hx) as (Rx & -> & ->). auto.
Qed.

Lemma label_iso : forall s s' p, Inv N s -> Inv N s' -> iso N s s' -> 0 <= p < N -> zn (c_label s) p = 0 ->
  exists s1 s1', label_impl g s p = Ok s1 /\ label_impl g s' p = Ok s1' /\ Inv N s1 /\ Inv N s1' /\ iso N s1 s1' /\
    (c_new s1 =? c_new s) = (c_new s1' =? c_new s') /\
    (forall q, 0 <= q < N -> q <> p -> zn (c_label s1) q = zn (c_label s) q /\ zn (c_label s1') q = zn (c_label s') q).
Proof.
  intros s s' p HI HI' HS Hp H0. pose proof (wf_nb_ok g HW) as Hok. pose proof HS as (HM & HB & HC).
  assert (H0' : zn (c_label s') p = 0) by (apply (HC (false, p) Hp); exact H0).
  destruct (label_impl_ok N g s p HI HN Hok Hp H0) as (s1 & E & I1 & R1 & N1 & M1 & _).
  destruct (label_impl_ok N g s' p HI' HN Hok Hp H0') as (s1' & E' & I1' & R1' & N1' & M1' & _).
  pose proof (label_value N g s p HI HN Hok Hp s1 E) as L1. pose proof (label_value N g s' p HI' HN Hok Hp s1' E') as L1'.
  exists s1, s1'. split; auto. split; auto. split; auto. split; auto.
  pose proof (iv_len _ _ HI) as HL. pose proof (iv_len _ _ HI') as HL'.
  assert (NBR : forall c, In c (nb g p) -> 0 <= c < N) by (intros c Hc; rewrite HN; apply (nb_range g p c Hok); auto; lia).
  assert (HMn : c_nmerge s1' = c_nmerge s1).
  { rewrite M1, M1', HM. f_equal.
    destruct (a_nm_iff (nb g p) (rep s)) as [D X]. destruct (a_nm_iff (nb g p) (rep s')) as [D' X'].
    assert (a_nm (nb g p) (rep s) = 0 <-> a_nm (nb g p) (rep s') = 0).
    { rewrite X, X'. split; intros H c d Hc Hd Hn Hm.
      - apply (iso_eq N s s' (true, c) (true, d) HS (NBR c Hc) (NBR d Hd)). apply H; auto.
        + intros Z0. apply Hn. apply (HC (true, c) (NBR c Hc)). exact Z0.
        + intros Z0. apply Hm. apply (HC (true, d) (NBR d Hd)). exact Z0.
      - apply (iso_eq N s s' (true, c) (true, d) HS (NBR c Hc) (NBR d Hd)). apply H; auto.
        + intros Z0. apply Hn. apply (HC (true, c) (NBR c Hc)). exact Z0.
        + intros Z0. apply Hm. apply (HC (true, d) (NBR d Hd)). exact Z0. }
    lia. }
  assert (NN : near (nb g p) (rep s) = [] <-> near (nb g p) (rep s') = []).
  { rewrite !near_none. split; intros H c Hc.
    - apply (HC (true, c) (NBR c Hc)). apply H; auto.
    - apply (HC (true, c) (NBR c Hc)). apply H; auto. }
  assert (HLR : lenZ (rep s) = N) by (rewrite rep_len; auto). assert (HLR' : lenZ (rep s') = N) by (rewrite rep_len; auto).
  destruct (near (nb g p) (rep s)) as [|r0 C0] eqn:EC.
  - (* a new cluster *)
    pose proof (proj1 NN eq_refl) as EC'. unfold a_rep in R1, R1'. unfold a_new in N1, N1'. rewrite EC in *. rewrite EC' in *.
    assert (V : forall x, 0 <= snd x < N -> val s1 x = if p =? snd x then c_new s else val s x).
    { intros [b q] Hq. cbn [snd] in *. unfold val. cbn [fst snd]. rewrite R1, L1, !zn_upd by lia. destruct b, (p =? q); auto. }
    assert (V' : forall x, 0 <= snd x < N -> val s1' x = if p =? snd x then c_new s' else val s' x).
    { intros [b q] Hq. cbn [snd] in *. unfold val. cbn [fst snd]. rewrite R1', L1', !zn_upd by lia. destruct b, (p =? q); auto. }
    split; [split; [exact HMn|split]|].
    + intros x y Hx Hy. rewrite !V, !V' by auto.
      pose proof (val_bound N s x HI Hx). pose proof (val_bound N s y HI Hy). pose proof (val_bound N s' x HI' Hx). pose proof (val_bound N s' y HI' Hy).
      destruct (p =? snd x), (p =? snd y); try lia. apply HB; auto.
    + intros x Hx. rewrite V, V' by auto. pose proof (iv_new _ _ HI). pose proof (iv_new _ _ HI'). destruct (p =? snd x); [lia|]. apply HC; auto.
    + split; [rewrite N1, N1'; lia|]. intros q Hq Hne. rewrite L1, L1', !zn_upd by lia. replace (p =? q) with false by lia. auto.
  - (* next to clusters *)
    assert (ECn : near (nb g p) (rep s) <> []) by (rewrite EC; discriminate).
    assert (ECn' : near (nb g p) (rep s') <> []) by (intros X; apply NN in X; discriminate).
    rewrite <- EC in L1. clear EC NN.
    set (C := near (nb g p) (rep s)) in *. set (C' := near (nb g p) (rep s')) in *.
    destruct (zmin_spec C ECn) as [Z1 Z2]. destruct (zmin_spec C' ECn') as [Z1' Z2'].
    assert (exists c, In c (nb g p) /\ zmin C = zn (rep s) c /\ zmin C' = zn (rep s') c) as (c & Hc & Ec & Ec').
    { pose proof Z1 as Y. apply near_In in Y. destruct Y as (Hn & c & Hc & Ec). exists c. split; auto. split; auto.
      pose proof Z1' as Y'. apply near_In in Y'. destruct Y' as (Hn' & c' & Hc' & Ec').
      assert (A1 : In (zn (rep s') c) C').
      { apply near_In. split; [|eauto]. intros X. apply Hn. rewrite <- Ec. apply (HC (true, c) (NBR c Hc)). exact X. }
      assert (A2 : In (zn (rep s) c') C).
      { apply near_In. split; [|eauto]. intros X. apply Hn'. rewrite <- Ec'. apply (HC (true, c') (NBR c' Hc')). exact X. }
      pose proof (Z2' _ A1). pose proof (Z2 _ A2).
      pose proof (HB (true, c') (true, c) (NBR c' Hc') (NBR c Hc)) as X. unfold val in X. cbn [fst snd] in X. lia. }
    assert (MEM : forall q, 0 <= q < N -> existsb (Z.eqb (zn (rep s) q)) C = existsb (Z.eqb (zn (rep s') q)) C').
    { intros q Hq.
      assert (K : In (zn (rep s) q) C <-> In (zn (rep s') q) C').
      { unfold C, C'. rewrite !near_In. split; intros (Hn & d & Hd & Ed).
        - split; [intros X; apply Hn; apply (HC (true, q) Hq); exact X|]. exists d. split; auto.
          apply (iso_eq N s s' (true, d) (true, q) HS (NBR d Hd) Hq). exact Ed.
        - split; [intros X; apply Hn; apply (HC (true, q) Hq); exact X|]. exists d. split; auto.
          apply (iso_eq N s s' (true, d) (true, q) HS (NBR d Hd) Hq). exact Ed. }
      destruct (existsb (Z.eqb (zn (rep s) q)) C) eqn:X, (existsb (Z.eqb (zn (rep s') q)) C') eqn:X'; auto.
      - apply existsb_eqb in X. apply existsb_eqb_false in X'. tauto.
      - apply existsb_eqb in X'. apply existsb_eqb_false in X. tauto. }
    set (h := fun x : bool * Z => if p =? snd x then (true, c)
                else if fst x && existsb (Z.eqb (zn (rep s) (snd x))) C then (true, c) else x).
    assert (AR : a_rep (nb g p) (rep s) (c_new s) p = upd (Z.to_nat p) (zmin C) (map (fun v => if existsb (Z.eqb v) C then zmin C else v) (rep s))).
    { unfold a_rep. fold C. destruct C; [congruence|reflexivity]. }
    assert (AR' : a_rep (nb g p) (rep s') (c_new s') p = upd (Z.to_nat p) (zmin C') (map (fun v => if existsb (Z.eqb v) C' then zmin C' else v) (rep s'))).
    { unfold a_rep. fold C'. destruct C'; [congruence|reflexivity]. }
    assert (AL : c_label s1 = upd (Z.to_nat p) (zmin C) (c_label s)) by (rewrite L1; destruct C; [congruence|reflexivity]).
    assert (AL' : c_label s1' = upd (Z.to_nat p) (zmin C') (c_label s')) by (rewrite L1'; destruct C'; [congruence|reflexivity]).
    assert (AN : c_new s1 = c_new s) by (rewrite N1; unfold a_new; fold C; destruct C; [congruence|reflexivity]).
    assert (AN' : c_new s1' = c_new s') by (rewrite N1'; unfold a_new; fold C'; destruct C'; [congruence|reflexivity]).
    split; [|split].
    + apply (map_iso s s' s1 s1' h HS HMn). intros [b q] Hq. cbn [snd] in Hq. unfold h. cbn [fst snd].
      split; [destruct (p =? q); cbn [snd]; auto; destruct (b && _); cbn [snd]; auto|].
      unfold val. rewrite R1, R1', AR, AR', AL, AL'. cbn [fst snd].
      assert (U : forall (l : list Z) v j, lenZ l = N -> 0 <= j < N -> zn (upd (Z.to_nat p) v l) j = if p =? j then v else zn l j)
        by (intros; apply zn_upd; lia).
      rewrite !U by (auto; unfold lenZ in *; rewrite ?map_length; auto). rewrite !zn_map by lia.
      rewrite <- (MEM q Hq). destruct (p =? q); cbn [fst snd].
      * destruct b; auto.
      * destruct b; cbn [andb fst snd]; auto. destruct (existsb (Z.eqb (zn (rep s) q)) C); cbn [fst snd]; auto.
    + rewrite AN, AN', !Z.eqb_refl. reflexivity.
    + intros q Hq Hne. rewrite AL, AL', !zn_upd by lia. replace (p =? q) with false by lia. auto.
Qed.

(** ** Loops *)

Lemma point_iso : forall s s' p, Inv N s -> Inv N s' -> iso N s s' -> 0 <= p < N ->
  exists s1 s1', (l <- vget (c_label s) p ;; if negb (l =? 0) then Ok s else label_impl g s p) = Ok s1 /\
    (l <- vget (c_label s') p ;; if negb (l =? 0) then Ok s' else label_impl g s' p) = Ok s1' /\ Inv N s1 /\ Inv N s1' /\ iso N s1 s1'.
Proof.
  intros s s' p HI HI' HS Hp. rewrite !vget_ok by (rewrite ?(iv_len _ _ HI), ?(iv_len _ _ HI'); lia). rewrite !bind_Ok.
  pose proof (proj2 (proj2 HS) (false, p) Hp) as HZ. unfold val in HZ. cbn [fst snd] in HZ.
  destruct (Z.eqb_spec (zn (c_label s) p) 0) as [E|E], (Z.eqb_spec (zn (c_label s') p) 0) as [E'|E']; try tauto; cbn [negb].
  - destruct (label_iso s s' p HI HI' HS Hp E) as (s1 & s1' & H1 & H2 & H3 & H4 & H5 & _). exists s1, s1'. auto.
  - exists s, s'. auto 10.
Qed.

Lemma points_iso : forall l s s', (forall p, In p l -> 0 <= p < N) -> Inv N s -> Inv N s' -> iso N s s' ->
  exists s1 s1',
    foldM (fun s i => l <- vget (c_label s) i ;; if negb (l =? 0) then Ok s else label_impl g s i) l s = Ok s1 /\
    foldM (fun s i => l <- vget (c_label s) i ;; if negb (l =? 0) then Ok s else label_impl g s i) l s' = Ok s1' /\
    Inv N s1 /\ Inv N s1' /\ iso N s1 s1'.
Proof.
  induction l as [|p l IH]; intros s s' Hl HI HI' HS; cbn [foldM].
  - exists s, s'. auto.
  - destruct (point_iso s s' p HI HI' HS (Hl p (or_introl eq_refl))) as (s1 & s1' & -> & -> & I1 & I1' & S1). rewrite !bind_Ok.
    apply IH; auto. intros q Hq. apply Hl. simpl. auto.
Qed.

Lemma image_iso : forall img l s s', lenZ img = N -> (forall p, In p l -> 0 <= p < N) -> Inv N s -> Inv N s' -> iso N s s' ->
  let f := fun s idx => v <- vget img idx ;;
                 if v =? 0 then Ok s
                 else l <- vget (c_label s) idx ;;
                      if negb (l =? 0) then Ok s else label_impl g s idx in
  exists s1 s1', foldM f l s = Ok s1 /\ foldM f l s' = Ok s1' /\ Inv N s1 /\ Inv N s1' /\ iso N s1 s1'.
Proof.
  intros img. induction l as [|p l IH]; intros s s' Himg Hl HI HI' HS f; cbn [foldM].
  - exists s, s'. auto.
  - assert (Hp : 0 <= p < N) by (apply Hl; simpl; auto). assert (Hl' : forall q, In q l -> 0 <= q < N) by (intros; apply Hl; simpl; auto).
    assert (F : forall t, f t p = if zn img p =? 0 then Ok t else l <- vget (c_label t) p ;; if negb (l =? 0) then Ok t else label_impl g t p).
    { intros t. unfold f. rewrite vget_ok by lia. rewrite bind_Ok. reflexivity. }
    rewrite !F. destruct (zn img p =? 0).
    + rewrite !bind_Ok. apply IH; auto.
    + destruct (point_iso s s' p HI HI' HS Hp) as (s1 & s1' & -> & -> & I1 & I1' & S1). rewrite !bind_Ok. apply IH; auto.
Qed.

Lemma apply_iso : forall s s', Inv N s -> Inv N s' -> iso N s s' ->
  exists s1 s1', apply_merge s = Ok s1 /\ apply_merge s' = Ok s1' /\ Q N s1 /\ Q N s1' /\ iso N s1 s1'.
Proof.
  intros s s' HI HI' HS. destruct (apply_merge_ok N s HI) as (s1 & E & Q1 & L1 & _). destruct (apply_merge_ok N s' HI') as (s1' & E' & Q1' & L1' & _).
  exists s1, s1'. split; auto. split; auto. split; auto. split; auto.
  apply (map_iso s s' s1 s1' (fun x => (true, snd x)) HS); [rewrite (proj2 Q1), (proj2 Q1'); auto|].
  intros [b q] Hq. cbn [snd] in *. split; auto. unfold val. cbn [fst snd]. rewrite (Q_rep _ _ Q1), (Q_rep _ _ Q1'), L1, L1'. destruct b; auto.
Qed.

(** The label that [add_sequence] compares with. *)
Definition keyed (s s' : st) (lab lab' : Z) : Prop :=
  (lab = 0 /\ lab' = 0) \/ exists k, 0 <= k < N /\ zn (c_label s) k <> 0 /\ lab = zn (c_label s) k /\ lab' = zn (c_label s') k.

Lemma inner_iso : forall rest s s' lab lab' i, (forall p, In p rest -> 0 <= p < N) -> Inv N s -> Inv N s' -> iso N s s' -> keyed s s' lab lab' ->
  exists s1 s1' j b, seq_inner g s (c_new s) (c_nmerge s) lab i rest = Ok (s1, j, b) /\
    seq_inner g s' (c_new s') (c_nmerge s') lab' i rest = Ok (s1', j, b) /\ Inv N s1 /\ Inv N s1' /\ iso N s1 s1'.
Proof.
  induction rest as [|p l IH]; intros s s' lab lab' i Hl HI HI' HS HK; cbn [seq_inner].
  - exists s, s', i, false. auto.
  - assert (Hp : 0 <= p < N) by (apply Hl; simpl; auto). assert (Hl' : forall q, In q l -> 0 <= q < N) by (intros; apply Hl; simpl; auto).
    rewrite !vget_ok by (rewrite ?(iv_len _ _ HI), ?(iv_len _ _ HI'); lia). rewrite !bind_Ok.
    pose proof (proj2 (proj2 HS) (false, p) Hp) as HZ. unfold val in HZ. cbn [fst snd] in HZ.
    assert (EZ : (zn (c_label s) p =? 0) = (zn (c_label s') p =? 0)) by lia.
    assert (EL : (zn (c_label s) p =? lab) = (zn (c_label s') p =? lab')).
    { destruct HK as [[-> ->]|(k & Hk & _ & -> & ->)]; [exact EZ|].
      pose proof (iso_eq N s s' (false, p) (false, k) HS Hp Hk) as X. unfold val in X. cbn [fst snd] in X. lia. }
    rewrite <- EL, <- EZ.
    destruct (negb (zn (c_label s) p =? lab) && negb (zn (c_label s) p =? 0)); [exists s, s', i, true; auto|].
    destruct (zn (c_label s) p =? 0) eqn:E; cbn [negb]; [|apply IH; auto].
    destruct (label_iso s s' p HI HI' HS Hp ltac:(lia)) as (s1 & s1' & -> & -> & I1 & I1' & S1 & EN & KEEP). rewrite !bind_Ok.
    pose proof (proj1 S1) as M1. pose proof (proj1 HS) as M0. rewrite <- EN, M1, M0.
    destruct (c_new s1 =? c_new s) eqn:A1; cbn [negb orb]; [|exists s1, s1', i, true; auto 10].
    destruct (c_nmerge s1 =? c_nmerge s) eqn:A2; cbn [negb]; [|exists s1, s1', i, true; auto 10].
    assert (HK1 : keyed s1 s1' lab lab').
    { destruct HK as [HK|(k & Hk & Hk0 & -> & ->)]; [left; auto|]. right. exists k. split; auto.
      assert (Hne : k <> p) by (intros ->; lia). destruct (KEEP k Hk Hne) as [-> ->]. auto. }
    pose proof (IH s1 s1' lab lab' (i + 1) Hl' I1 I1' S1 HK1) as X.
    apply Z.eqb_eq in A1, A2. symmetry in EN. apply Z.eqb_eq in EN. rewrite M1, A1, EN, A2 in X. exact X.
Qed.

Lemma outer_iso : forall l, (forall p, In p l -> 0 <= p < N) -> forall fuel s s' i ret s1 out, Inv N s -> Inv N s' -> iso N s s' ->
  seq_outer fuel g s l i ret = Ok (s1, out) ->
  exists s1', seq_outer fuel g s' l i ret = Ok (s1', out) /\ Inv N s1 /\ Inv N s1' /\ iso N s1 s1'.
Proof.
  intros l Hl. induction fuel as [|fuel IH]; intros s s' i ret s1 out HI HI' HS H; cbn [seq_outer] in *; [discriminate|].
  apply bind_inv in H. destruct H as (p & Ep & H). pose proof (vget_inv _ _ _ _ Ep) as Hi.
  rewrite vget_ok in Ep by auto. assert (p = zn l i) by congruence. subst p. clear Ep.
  assert (Hp : 0 <= zn l i < N) by (apply Hl, zn_In; auto).
  rewrite vget_ok in H by (rewrite (iv_len _ _ HI); lia). rewrite bind_Ok in H.
  rewrite (vget_ok l i) by lia. rewrite bind_Ok. rewrite vget_ok by (rewrite (iv_len _ _ HI'); lia). rewrite bind_Ok.
  assert (HR : forall p, In p (skipn (Z.to_nat i) l) -> 0 <= p < N).
  { intros p Hin. apply Hl. rewrite <- (firstn_skipn (Z.to_nat i) l). apply in_or_app. auto. }
  assert (HK : keyed s s' (zn (c_label s) (zn l i)) (zn (c_label s') (zn l i))).
  { pose proof (proj2 (proj2 HS) (false, zn l i) Hp) as HZ. unfold val in HZ. cbn [fst snd] in HZ.
    destruct (Z.eq_dec (zn (c_label s) (zn l i)) 0) as [E|E]; [left; tauto|right]. exists (zn l i). auto. }
  destruct (inner_iso _ s s' _ _ i HR HI HI' HS HK) as (s2 & s2' & j & b & F & F' & I2 & I2' & S2).
  rewrite F in H. rewrite F'. rewrite bind_Ok in *.
  destruct (j =? lenZ l).
  - assert (s1 = s2 /\ out = if b then ret ++ [j] else ret) as [-> ->] by (split; congruence). exists s2'. auto.
  - apply (IH s2 s2' j _ s1 out I2 I2' S2 H).
Qed.

Lemma prune_iso : forall s, Q N s -> exists s1, prune s = Ok s1 /\ Q N s1 /\ iso N s s1.
Proof.
  intros s HQ. destruct (prune_ok N s HQ) as (t1 & E & Q1 & L1 & _). exists t1. split; auto. split; auto.
  pose proof (Q_AI _ _ HQ) as HA.
  assert (V0 : forall x, val s x = zn (c_label s) (snd x)) by (intros [[|] p]; unfold val; cbn [fst snd]; rewrite ?(Q_rep _ _ HQ); auto).
  assert (V1 : forall x, 0 <= snd x < N -> val t1 x = rank (c_label s) (zn (c_label s) (snd x))).
  { intros [b p] Hp. unfold val. rewrite (Q_rep _ _ Q1), L1. cbn [fst snd] in *. rewrite zn_map by (rewrite (iv_len _ _ (proj1 HQ)); auto). destruct b; auto. }
  split; [rewrite (proj2 HQ), (proj2 Q1); auto|]. split.
  - intros x y Hx Hy. rewrite !V0, !V1 by auto. symmetry. apply (rank_lt_iff N _ (snd x) (snd y) HA Hx Hy).
  - intros x Hx. rewrite V0, V1 by auto. symmetry. apply (rank_zero_iff N _ (snd x) HA Hx).
Qed.

(** ** Calls *)

Lemma step_iso : forall asrt s s' o, Q N s -> Q N s' -> iso N s s' -> legal (g_shape g) o ->
  exists s1 s1' out out', step asrt g s o = Ok (s1, out) /\ step asrt g s' o = Ok (s1', out') /\ Q N s1 /\ Q N s1' /\ iso N s1 s1' /\ out' = out.
Proof.
  intros asrt s s' o HQ HQ' HS Hl. pose proof (zprod_big g HW) as HB.
  destruct o as [sh img|l|l| |]; cbn [step legal] in *.
  - destruct Hl as [-> Hlen]. unfold add_image. rewrite eqbl_refl.
    replace (assertb asrt true) with (Ok tt) by (destruct asrt; auto). rewrite !bind_Ok.
    destruct (image_iso img (zseq 0 (length img)) s s') as (s1 & s1' & E & E' & I1 & I1' & S1); auto; try apply HQ; try apply HQ'; try lia.
    { intros p Hp. apply zseq_In in Hp. unfold lenZ in *. lia. }
    cbv zeta in E, E'. rewrite E, E', !bind_Ok.
    destruct (apply_iso s1 s1' I1 I1' S1) as (s2 & s2' & -> & -> & Q2 & Q2' & S2). rewrite !bind_Ok. exists s2, s2', [], []. auto 10.
  - assert (P : forall p, In p l -> 0 <= p < N) by (intros p Hp; rewrite HN; apply Hl; auto).
    unfold add_points.
    rewrite (legal_points_true N s l (proj1 HQ) ltac:(lia) P), (legal_points_true N s' l (proj1 HQ') ltac:(lia) P).
    replace (assertb asrt true) with (Ok tt) by (destruct asrt; auto). rewrite !bind_Ok.
    destruct (points_iso l s s' P (proj1 HQ) (proj1 HQ') HS) as (s1 & s1' & -> & -> & I1 & I1' & S1). rewrite !bind_Ok.
    destruct (apply_iso s1 s1' I1 I1' S1) as (s2 & s2' & -> & -> & Q2 & Q2' & S2). rewrite !bind_Ok. exists s2, s2', [], []. auto 10.
  - destruct Hl as [Hne Hl]. assert (P : forall p, In p l -> 0 <= p < N) by (intros p Hp; rewrite HN; apply Hl; auto).
    assert (QG : Q (zprod (g_shape g)) s) by (rewrite <- HN; auto).
    destruct (add_sequence_ok asrt g s l HW QG) as (s2 & ret & E & Q2 & _); auto.
    exists s2. pose proof E as K.
    unfold add_sequence in E.
    apply bind_inv in E. destruct E as (u & U & E). apply bind_inv in E. destruct E as (u1 & U1 & E).
    apply bind_inv in E. destruct E as ([s1 r1] & E1 & E). apply bind_inv in E. destruct E as (s3 & E3 & E).
    assert (s3 = s2 /\ r1 ++ [lenZ l] = ret ++ [lenZ l]) as [-> ER] by (split; congruence). clear E.
    destruct (outer_iso l P _ s s' 0 [] s1 r1 (proj1 HQ) (proj1 HQ') HS E1) as (s1' & E1' & I1 & I1' & S1).
    destruct (apply_iso s1 s1' I1 I1' S1) as (t2 & t2' & A2 & A2' & T2 & T2' & S2).
    assert (t2 = s2) by congruence. subst t2.
    exists t2', (ret ++ [lenZ l]), (ret ++ [lenZ l]). split; auto. split; [|auto 10].
    unfold add_sequence. rewrite U, bind_Ok.
    rewrite (legal_points_true N s' l (proj1 HQ') ltac:(lia) P). replace (assertb asrt true) with (Ok tt) by (destruct asrt; auto).
    rewrite bind_Ok, E1', bind_Ok, A2', bind_Ok. congruence.
  - destruct (prune_iso s HQ) as (s1 & E & Q1 & S1). destruct (prune_iso s' HQ') as (s1' & E' & Q1' & S1').
    rewrite E, E', !bind_Ok. exists s1, s1', [], []. split; auto. split; auto. split; auto. split; auto. split; auto.
    apply iso_trans with s; [apply iso_sym; auto|]. apply iso_trans with s'; auto.
  - exists (reset s), (reset s'), [], [].
    assert (R : reset s = init g) by (apply reset_init; auto; rewrite <- HN; auto).
    assert (R' : reset s' = init g) by (apply reset_init; auto; rewrite <- HN; auto).
    rewrite R, R'. assert (Q N (init g)) by (rewrite HN; apply Q_init; auto). auto 10 using iso_refl.
Qed.

End Iso.
