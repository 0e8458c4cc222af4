(** * PathProofs: pixel paths (proofs only). *)

From Coq Require Import ZArith QArith Qabs List Bool Lia Lqa.
From Verif Require Import Base BaseLemmas Path SpecPath.
Import ListNotations.
Open Scope Z_scope.

(** ** Bresenham *)

Lemma ax_step : forall A B k m d, 0 < A -> 0 <= B <= A ->
  m = (2 * B * k + A) / (2 * A) -> d = 2 * B * (k + 1) - A - 2 * A * m ->
  if 0 <=? d
  then (2 * B * (k + 1) + A) / (2 * A) = m + 1
  else (2 * B * (k + 1) + A) / (2 * A) = m.
Proof.
  intros A B k m d HA HB Hm Hd.
  pose proof (Z.div_mod (2 * B * k + A) (2 * A) ltac:(lia)) as D. rewrite <- Hm in D.
  pose proof (Z.mod_pos_bound (2 * B * k + A) (2 * A) ltac:(lia)) as R.
  destruct (0 <=? d) eqn:E; symmetry.
  - apply (Z.div_unique_pos _ _ _ (2 * B * (k + 1) + A - 2 * A * (m + 1))); lia.
  - apply (Z.div_unique_pos _ _ _ (2 * B * (k + 1) + A - 2 * A * m)); lia.
Qed.

Lemma gss : forall v i z, get (set v i z) i = z.
Proof. intros v [] z; reflexivity. Qed.
Lemma gso : forall v i i' z, i' <> i -> get (set v i z) i' = get v i'.
Proof. intros v [] [] z H; reflexivity || congruence. Qed.
Lemma oth_p : forall j, fst (others j) <> j.
Proof. intros []; discriminate. Qed.
Lemma oth_q : forall j, snd (others j) <> j.
Proof. intros []; discriminate. Qed.
Lemma oth_pq : forall j, fst (others j) <> snd (others j).
Proof. intros []; discriminate. Qed.
Lemma oth_all : forall j i, i = j \/ i = fst (others j) \/ i = snd (others j).
Proof. intros [] []; auto. Qed.

Section Bres.
Variables from s B a : v3.
Variable j : axis3.
Variable ndim : nat.
Variable xb : list Z.
Let A := get B j.
Hypothesis HA : 0 < A.
Hypothesis HB : forall i, 0 <= get B i <= A.
Hypothesis Haj : get a j = 2 * A.
Hypothesis Ha : forall i, get s i = 0 \/ get a i = 2 * get B i.
Hypothesis Hto : tget xb (idx j) = Ok (get from j + get s j * A).
Hypothesis Hs : get s j = 1 \/ get s j = -1.

Definition mm (i : axis3) (k : Z) : Z := (2 * get B i * k + A) / (2 * A).
Definition pos (k : Z) : v3 :=
  mkv3 (c0 from + c0 s * mm X0 k) (c1 from + c1 s * mm X1 k) (c2 from + c2 s * mm X2 k).
Definition Dinv (k : Z) (d : v3) : Prop :=
  forall i, i <> j -> get s i = 0 \/ get d i = 2 * get B i * (k + 1) - A - 2 * A * mm i k.

Lemma get_pos : forall k i, get (pos k) i = get from i + get s i * mm i k.
Proof. intros k []; reflexivity. Qed.

Lemma mm_j : forall k, mm j k = k.
Proof.
  intros k. unfold mm. fold A. symmetry. apply (Z.div_unique_pos _ _ _ A); lia.
Qed.

Lemma v3_ext : forall u v, (forall i, get u i = get v i) -> u = v.
Proof. intros [u0 u1 u2] [w0 w1 w2] H. f_equal; [apply (H X0)|apply (H X1)|apply (H X2)]. Qed.

(** One axis other than [j]. *)
Lemma check_ok : forall k d i, Dinv k d -> i <> j ->
  forall x, get x i = get (pos k) i ->
  let x' := fst (bres_check (get a j) s (x, d) i) in
  let d' := snd (bres_check (get a j) s (x, d) i) in
  get x' i = get (pos (k + 1)) i /\ (get s i = 0 \/ get d' i + get a i = 2 * get B i * (k + 2) - A - 2 * A * mm i (k + 1)) /\
  (forall i', i' <> i -> get x' i' = get x i') /\ (forall i', i' <> i -> get d' i' = get d i').
Proof.
  intros k d i HD Hij x Hx. cbv zeta. unfold bres_check. rewrite Haj.
  pose proof (ax_step A (get B i) k (mm i k) (get d i) HA (HB i) eq_refl) as ST.
  fold (mm i (k + 1)) in ST. rewrite get_pos in Hx. rewrite get_pos.
  destruct (HD i Hij) as [S0|ED].
  - destruct (0 <=? get d i); cbn [fst snd]; rewrite ?S0 in *.
    + rewrite gss. split; [lia|]. split; [auto|]. split; intros i' Hi'; apply gso; auto.
    + split; [lia|]. split; [auto|]. split; auto.
  - specialize (ST ED). destruct (0 <=? get d i) eqn:E; cbn [fst snd].
    + rewrite !gss. split; [rewrite ST, Hx; lia|]. split.
      * destruct (Ha i) as [S0|Ea]; [auto|right]. rewrite Ea, ST, ED. lia.
      * split; intros i' Hi'; apply gso; auto.
    + split; [rewrite ST; auto|]. split.
      * destruct (Ha i) as [S0|Ea]; [auto|right]. rewrite Ea, ST, ED. lia.
      * split; auto.
Qed.

Lemma bres_loop_ok : forall r k d fuel, Z.of_nat r = A - k -> 0 <= k -> (r < fuel)%nat -> Dinv k d ->
  bres_loop fuel ndim xb j a s (pos k) d = Ok (map (fun k => row ndim (pos k)) (zseq k (S r))).
Proof.
  induction r as [|r IH]; intros k d fuel Hr Hk Hf HD; (destruct fuel as [|fuel]; [lia|]); cbn [bres_loop].
  - rewrite Hto, bind_Ok, get_pos, mm_j. replace k with A by lia. rewrite Z.eqb_refl. reflexivity.
  - rewrite Hto, bind_Ok, get_pos, mm_j.
    replace (get from j + get s j * k =? get from j + get s j * A) with false.
    2: { symmetry. apply Z.eqb_neq. destruct Hs as [E|E]; rewrite E; lia. }
    pose proof (oth_p j) as Hpj. pose proof (oth_q j) as Hqj. pose proof (oth_pq j) as Hpq. pose proof (oth_all j) as Hall.
    set (p := fst (others j)) in *. set (q := snd (others j)) in *.
    pose proof (check_ok k d p HD Hpj (pos k) eq_refl) as C1. cbv zeta in C1.
    destruct (bres_check (get a j) s (pos k, d) p) as [x1 d1]. cbn [fst snd] in C1.
    destruct C1 as (P1 & P2 & P3 & P4).
    assert (Cq : get x1 q = get (pos k) q) by (apply P3; auto).
    set (d1' := set d1 p (get d p)).
    assert (HDq : Dinv k d1').
    { intros i Hi. unfold d1'. destruct (HD i Hi) as [X|X]; [auto|right].
      rewrite <- X. destruct (Hall i) as [->|[->| ->]]; [congruence| |].
      - apply gss.
      - rewrite gso by auto. apply P4; auto. }
    pose proof (check_ok k d1' q HDq Hqj x1 Cq) as C2. cbv zeta in C2.
    assert (EC : fst (bres_check (get a j) s (x1, d1) q) = fst (bres_check (get a j) s (x1, d1') q) /\
      get (snd (bres_check (get a j) s (x1, d1) q)) q = get (snd (bres_check (get a j) s (x1, d1') q)) q).
    { unfold bres_check. replace (get d1' q) with (get d1 q) by (unfold d1'; rewrite gso; auto).
      destruct (0 <=? get d1 q); cbn [fst snd]; (split; [auto|]); rewrite ?gss; auto.
      unfold d1'; rewrite gso; auto. }
    assert (Ep : get (snd (bres_check (get a j) s (x1, d1) q)) p = get d1 p).
    { unfold bres_check. destruct (0 <=? get d1 q); cbn [snd]; auto. apply gso; auto. }
    destruct EC as [EC1 EC2]. rewrite <- EC1, <- EC2 in C2.
    destruct (bres_check (get a j) s (x1, d1) q) as [x2 d2]. cbn [fst snd] in *.
    destruct C2 as (Q1 & Q2 & Q3 & Q4).
    assert (EX : set x2 j (get x2 j + get s j) = pos (k + 1)).
    { apply v3_ext. intros i. destruct (Hall i) as [->|[->| ->]].
      - rewrite gss. rewrite Q3 by auto. rewrite P3 by auto. rewrite !get_pos, !mm_j. lia.
      - rewrite gso by auto. rewrite Q3 by auto. auto.
      - rewrite gso by auto. auto. }
    rewrite EX. rewrite (IH (k + 1)); [|lia|lia|lia|].
    + rewrite bind_Ok. cbn [zseq map]. auto.
    + intros i Hi. replace (k + 1 + 1) with (k + 2) by lia. destruct (Hall i) as [->|[->| ->]]; [congruence| |].
      * destruct P2 as [S0|P2]; [auto|right]. rewrite gso by auto. rewrite gss, <- P2, <- Ep. auto.
      * destruct Q2 as [S0|Q2]; [auto|right]. rewrite gss. rewrite gso by auto. auto.
Qed.
End Bres.

Definition bpos (A k p q : Z) : Z := p + Z.sgn (q - p) * ((2 * Z.abs (q - p) * k + A) / (2 * A)).
Fixpoint brow (A k : Z) (x0 x1 : list Z) : list Z :=
  match x0, x1 with
  | p :: x0', q :: x1' => bpos A k p q :: brow A k x0' x1'
  | _, _ => []
  end.

Lemma i32_ok : forall z, - 2 ^ 31 <= z < 2 ^ 31 -> i32 z = Ok z.
Proof.
  intros z H. unfold i32. replace (- 2 ^ 31 <=? z) with true by lia. replace (z <? 2 ^ 31) with true by lia. auto.
Qed.

Lemma bres_axis_ok : forall xa xb i p q, 0 <= i < lenZ xa -> tget xa i = Ok p -> tget xb i = Ok q -> Z.abs (q - p) < 2 ^ 30 ->
  bres_axis xa xb i = Ok (2 * Z.abs (q - p), Z.sgn (q - p), p).
Proof.
  intros xa xb i p q Hi E1 E2 H. unfold bres_axis. replace (i <? lenZ xa) with true by lia.
  change (2 ^ 30) with 1073741824 in H.
  rewrite E1, bind_Ok, E2, bind_Ok, i32_ok, bind_Ok, i32_ok, bind_Ok; auto; change (2 ^ 31) with 2147483648; lia.
Qed.

Lemma bres_axis_none : forall xa xb i, lenZ xa <= i -> bres_axis xa xb i = Ok (1, 0, 0).
Proof. intros. unfold bres_axis. replace (i <? lenZ xa) with false by lia. auto. Qed.

Lemma bres_run : forall from s B a j ndim xb fuel, 0 < get B j ->
  (forall i, 0 <= get B i <= get B j) -> get a j = 2 * get B j ->
  (forall i, get s i = 0 \/ get a i = 2 * get B i) ->
  tget xb (idx j) = Ok (get from j + get s j * get B j) -> (get s j = 1 \/ get s j = -1) ->
  (Z.to_nat (get B j) < fuel)%nat ->
  (let (p, q) := others j in
   bres_loop fuel ndim xb j a s from (set (set (mkv3 0 0 0) p (get a p - get a j / 2)) q (get a q - get a j / 2))) =
  Ok (map (fun k => row ndim (pos from s B j k)) (zseq 0 (S (Z.to_nat (get B j))))).
Proof.
  intros from s B a j ndim xb fuel HA HB Haj Ha Hto Hs Hf.
  assert (Hmm : forall i, mm B j i 0 = 0).
  { intros i. unfold mm. rewrite Z.mul_0_r. apply Z.div_small. lia. }
  assert (E0 : from = pos from s B j 0).
  { apply v3_ext. intros i. rewrite get_pos, Hmm. lia. }
  pose proof (oth_p j) as Hpj. pose proof (oth_q j) as Hqj. pose proof (oth_pq j) as Hpq. pose proof (oth_all j) as Hall.
  destruct (others j) as [p q]. cbn [fst snd] in *.
  rewrite E0 at 1. apply (bres_loop_ok from s B a j ndim xb HA HB Haj Ha Hto Hs); try lia.
  intros i Hi. rewrite Hmm. replace (get a j / 2) with (get B j) by (rewrite Haj, Z.mul_comm, Z.div_mul; lia).
  destruct (Ha i) as [S0|Ea]; [auto|right]. destruct (Hall i) as [->|[->| ->]]; [congruence| |].
  - rewrite gso, gss by auto. lia.
  - rewrite gss. lia.
Qed.

Lemma bresenham_ok : forall fuel x0 x1, (1 <= length x0 <= 3)%nat -> length x1 = length x0 ->
  0 < span x0 x1 < 2 ^ 30 -> (Z.to_nat (span x0 x1) < fuel)%nat ->
  bresenham fuel x0 x1 = Ok (map (fun k => brow (span x0 x1) k x0 x1) (zseq 0 (S (Z.to_nat (span x0 x1))))).
Proof.
  intros fuel x0 x1 HL HL' HS Hf. unfold bresenham.
  replace (3 <? lenZ x0) with false by (unfold lenZ; lia).
  destruct x0 as [|p0 [|p1 [|p2 [|]]]]; cbn [length] in HL; try lia;
  destruct x1 as [|q0 [|q1 [|q2 [|]]]]; cbn [length] in HL'; try lia; cbn [span] in HS, Hf.
  - rewrite (bres_axis_ok _ _ 0 p0 q0) by (auto; cbn; lia).
    rewrite !bres_axis_none by (cbn; lia). rewrite !bind_Ok.
    replace (dominant (mkv3 (2 * Z.abs (q0 - p0)) 1 1)) with (Some X0).
    2: { unfold dominant, is_dominant. cbn [others fst snd get c0 c1 c2].
         replace (Z.max 1 1 <=? 2 * Z.abs (q0 - p0)) with true by lia. auto. }
    assert (EA : span [p0] [q0] = Z.abs (q0 - p0)) by (cbn [span]; lia). rewrite EA.
    etransitivity; [apply (bres_run (mkv3 p0 0 0) (mkv3 (Z.sgn (q0 - p0)) 0 0) (mkv3 (Z.abs (q0 - p0)) 0 0) _ X0)|];
      cbn [get c0 c1 c2 idx]; try lia.
    + intros []; cbn [get c0 c1 c2]; lia.
    + intros []; cbn [get c0 c1 c2]; auto.
    + change (tget [q0] 0) with (Ok q0). f_equal. lia.
    + reflexivity.
  - rewrite (bres_axis_ok _ _ 0 p0 q0) by (auto; cbn; lia). rewrite (bres_axis_ok _ _ 1 p1 q1) by (auto; cbn; lia).
    rewrite !bres_axis_none by (cbn; lia). rewrite !bind_Ok.
    unfold dominant, is_dominant. cbn [others fst snd get c0 c1 c2].
    destruct (Z.max (2 * Z.abs (q1 - p1)) 1 <=? 2 * Z.abs (q0 - p0)) eqn:E0.
    + assert (EA : span [p0; p1] [q0; q1] = Z.abs (q0 - p0)) by (cbn [span]; lia). rewrite EA.
      etransitivity; [apply (bres_run (mkv3 p0 p1 0) (mkv3 (Z.sgn (q0 - p0)) (Z.sgn (q1 - p1)) 0) (mkv3 (Z.abs (q0 - p0)) (Z.abs (q1 - p1)) 0) _ X0)|];
      cbn [get c0 c1 c2 idx]; try lia.
      * intros []; cbn [get c0 c1 c2]; lia.
      * intros []; cbn [get c0 c1 c2]; auto.
      * change (tget [q0; q1] 0) with (Ok q0). f_equal. lia.
      * reflexivity.
    + replace (Z.max (2 * Z.abs (q0 - p0)) 1 <=? 2 * Z.abs (q1 - p1)) with true by lia.
      assert (EA : span [p0; p1] [q0; q1] = Z.abs (q1 - p1)) by (cbn [span]; lia). rewrite EA.
      etransitivity; [apply (bres_run (mkv3 p0 p1 0) (mkv3 (Z.sgn (q0 - p0)) (Z.sgn (q1 - p1)) 0) (mkv3 (Z.abs (q0 - p0)) (Z.abs (q1 - p1)) 0) _ X1)|];
      cbn [get c0 c1 c2 idx]; try lia.
      * intros []; cbn [get c0 c1 c2]; lia.
      * intros []; cbn [get c0 c1 c2]; auto.
      * change (tget [q0; q1] 1) with (Ok q1). f_equal. lia.
      * reflexivity.
  - rewrite (bres_axis_ok _ _ 0 p0 q0) by (auto; cbn; lia). rewrite (bres_axis_ok _ _ 1 p1 q1) by (auto; cbn; lia).
    rewrite (bres_axis_ok _ _ 2 p2 q2) by (auto; cbn; lia). rewrite !bind_Ok.
    unfold dominant, is_dominant. cbn [others fst snd get c0 c1 c2].
    destruct (Z.max (2 * Z.abs (q1 - p1)) (2 * Z.abs (q2 - p2)) <=? 2 * Z.abs (q0 - p0)) eqn:E0.
    + assert (EA : span [p0; p1; p2] [q0; q1; q2] = Z.abs (q0 - p0)) by (cbn [span]; lia). rewrite EA.
      etransitivity; [apply (bres_run (mkv3 p0 p1 p2) (mkv3 (Z.sgn (q0 - p0)) (Z.sgn (q1 - p1)) (Z.sgn (q2 - p2))) (mkv3 (Z.abs (q0 - p0)) (Z.abs (q1 - p1)) (Z.abs (q2 - p2))) _ X0)|];
      cbn [get c0 c1 c2 idx]; try lia.
      * intros []; cbn [get c0 c1 c2]; lia.
      * intros []; cbn [get c0 c1 c2]; auto.
      * change (tget [q0; q1; q2] 0) with (Ok q0). f_equal. lia.
      * reflexivity.
    + destruct (Z.max (2 * Z.abs (q0 - p0)) (2 * Z.abs (q2 - p2)) <=? 2 * Z.abs (q1 - p1)) eqn:E1.
      * assert (EA : span [p0; p1; p2] [q0; q1; q2] = Z.abs (q1 - p1)) by (cbn [span]; lia). rewrite EA.
        etransitivity; [apply (bres_run (mkv3 p0 p1 p2) (mkv3 (Z.sgn (q0 - p0)) (Z.sgn (q1 - p1)) (Z.sgn (q2 - p2))) (mkv3 (Z.abs (q0 - p0)) (Z.abs (q1 - p1)) (Z.abs (q2 - p2))) _ X1)|];
        cbn [get c0 c1 c2 idx]; try lia.
        -- intros []; cbn [get c0 c1 c2]; lia.
        -- intros []; cbn [get c0 c1 c2]; auto.
        -- change (tget [q0; q1; q2] 1) with (Ok q1). f_equal. lia.
        -- reflexivity.
      * replace (Z.max (2 * Z.abs (q0 - p0)) (2 * Z.abs (q1 - p1)) <=? 2 * Z.abs (q2 - p2)) with true by lia.
        assert (EA : span [p0; p1; p2] [q0; q1; q2] = Z.abs (q2 - p2)) by (cbn [span]; lia). rewrite EA.
        etransitivity; [apply (bres_run (mkv3 p0 p1 p2) (mkv3 (Z.sgn (q0 - p0)) (Z.sgn (q1 - p1)) (Z.sgn (q2 - p2))) (mkv3 (Z.abs (q0 - p0)) (Z.abs (q1 - p1)) (Z.abs (q2 - p2))) _ X2)|];
        cbn [get c0 c1 c2 idx]; try lia.
        -- intros []; cbn [get c0 c1 c2]; lia.
        -- intros []; cbn [get c0 c1 c2]; auto.
        -- change (tget [q0; q1; q2] 2) with (Ok q2). f_equal. lia.
        -- reflexivity.
Qed.

Lemma bpos_0 : forall A p q, 0 < A -> bpos A 0 p q = p.
Proof. intros. unfold bpos. rewrite Z.mul_0_r, Z.div_small; lia. Qed.

Lemma bpos_end : forall A p q, 0 < A -> bpos A A p q = q.
Proof.
  intros A p q HA. unfold bpos.
  replace ((2 * Z.abs (q - p) * A + A) / (2 * A)) with (Z.abs (q - p)).
  - rewrite Z.mul_comm. rewrite <- (Z.sgn_abs (q - p)) at 1. lia.
  - apply (Z.div_unique_pos _ _ _ A); lia.
Qed.

Lemma bpos_m : forall A k b, 0 < A -> 0 <= b <= A -> 0 <= k <= A ->
  let m := (2 * b * k + A) / (2 * A) in
  2 * b * k - A < 2 * A * m <= 2 * b * k + A /\ 0 <= m <= b.
Proof.
  intros A k b HA Hb Hk m.
  pose proof (Z.div_mod (2 * b * k + A) (2 * A) ltac:(lia)) as D. fold m in D.
  pose proof (Z.mod_pos_bound (2 * b * k + A) (2 * A) ltac:(lia)) as R.
  split; [lia|]. assert (0 <= b * k) by lia. assert (b * k <= b * A) by (apply Z.mul_le_mono_nonneg_l; lia).
  split; nia.
Qed.

Lemma bpos_step : forall A k p q, 0 < A -> Z.abs (q - p) <= A -> 0 <= k < A ->
  let x := bpos A k p q in let y := bpos A (k + 1) p q in
  y = x \/ (x <> q /\ y = x + Z.sgn (q - x)).
Proof.
  intros A k p q HA HB Hk. cbv zeta. unfold bpos.
  pose proof (bpos_m A k (Z.abs (q - p)) HA ltac:(lia) ltac:(lia)) as [M1 M2]. cbv zeta in *.
  pose proof (bpos_m A (k + 1) (Z.abs (q - p)) HA ltac:(lia) ltac:(lia)) as [N1 N2]. cbv zeta in *.
  pose proof (ax_step A (Z.abs (q - p)) k _ _ HA ltac:(lia) eq_refl eq_refl) as ST.
  set (m := (2 * Z.abs (q - p) * k + A) / (2 * A)) in *.
  set (m' := (2 * Z.abs (q - p) * (k + 1) + A) / (2 * A)) in *.
  destruct (0 <=? 2 * Z.abs (q - p) * (k + 1) - A - 2 * A * m); rewrite ST; [|auto].
  rewrite ST in *. destruct (Z.lt_trichotomy (q - p) 0) as [L|[E|L]].
  - right. rewrite (Z.sgn_neg (q - p)) by auto. split; [lia|]. rewrite Z.sgn_neg; lia.
  - rewrite E. left. lia.
  - right. rewrite (Z.sgn_pos (q - p)) by auto. split; [lia|]. rewrite Z.sgn_pos; lia.
Qed.

Lemma bpos_half : forall A k p q, 0 < A -> Z.abs (q - p) <= A -> 0 <= k <= A ->
  Z.abs (2 * A * (bpos A k p q - p) - 2 * k * (q - p)) <= A.
Proof.
  intros A k p q HA HB Hk. unfold bpos.
  pose proof (bpos_m A k (Z.abs (q - p)) HA ltac:(lia) ltac:(lia)) as [M1 M2]. cbv zeta in *.
  set (m := (2 * Z.abs (q - p) * k + A) / (2 * A)) in *.
  destruct (Z.lt_trichotomy (q - p) 0) as [L|[E|L]].
  - rewrite (Z.sgn_neg (q - p)) by auto. rewrite (Z.abs_neq (q - p)) in * by lia. lia.
  - rewrite E in *. cbn [Z.sgn Z.abs] in *. lia.
  - rewrite (Z.sgn_pos (q - p)) by auto. rewrite (Z.abs_eq (q - p)) in * by lia. lia.
Qed.

Lemma brow_0 : forall A x0 x1, 0 < A -> length x1 = length x0 -> brow A 0 x0 x1 = x0.
Proof.
  intros A x0. induction x0 as [|p x0 IH]; intros [|q x1] HA HL; simpl in *; try discriminate; auto.
  rewrite bpos_0, IH; auto.
Qed.

Lemma brow_end : forall A x0 x1, 0 < A -> length x1 = length x0 -> brow A A x0 x1 = x1.
Proof.
  intros A x0. induction x0 as [|p x0 IH]; intros [|q x1] HA HL; simpl in *; try discriminate; auto.
  rewrite bpos_end, IH; auto.
Qed.

Lemma brow_step : forall A k x0 x1, 0 < A -> span x0 x1 <= A -> 0 <= k < A -> length x1 = length x0 ->
  closer x1 (brow A k x0 x1) (brow A (k + 1) x0 x1).
Proof.
  intros A k x0. induction x0 as [|p x0 IH]; intros [|q x1] HA HS Hk HL; simpl in *; try discriminate; auto.
  split; [apply bpos_step; lia|]. apply IH; auto; lia.
Qed.

Lemma bpos_inj : forall A k p q, 0 < A -> Z.abs (q - p) = A -> bpos A k p q <> bpos A (k + 1) p q.
Proof.
  intros A k p q HA E. unfold bpos. rewrite E.
  replace ((2 * A * k + A) / (2 * A)) with k by (apply (Z.div_unique_pos _ _ _ A); lia).
  replace ((2 * A * (k + 1) + A) / (2 * A)) with (k + 1) by (apply (Z.div_unique_pos _ _ _ A); lia).
  assert (Z.sgn (q - p) <> 0) by (rewrite Z.sgn_null_iff; lia). lia.
Qed.

Lemma brow_neq : forall A k x0 x1, 0 < A -> length x1 = length x0 -> span x0 x1 = A ->
  brow A k x0 x1 <> brow A (k + 1) x0 x1.
Proof.
  intros A k x0. induction x0 as [|p x0 IH]; intros [|q x1] HA HL HS; simpl in HL, HS; try discriminate; try lia.
  cbn [brow]. intros E. injection E as E1 E2.
  destruct (Z.eq_dec (Z.abs (q - p)) A) as [X|X].
  - revert E1. apply bpos_inj; auto.
  - revert E2. apply IH; auto; lia.
Qed.

Lemma span_nonneg : forall x0 x1, 0 <= span x0 x1.
Proof. induction x0 as [|p x0 IH]; intros [|q x1]; simpl; try lia. Qed.

Lemma span_pos : forall x0 x1, length x1 = length x0 -> x0 <> x1 -> 0 < span x0 x1.
Proof.
  induction x0 as [|p x0 IH]; intros [|q x1] HL HN; simpl in *; try discriminate; try congruence.
  destruct (Z.eq_dec p q) as [->|Hp]; [|lia].
  assert (0 < span x0 x1) by (apply IH; [lia|congruence]). lia.
Qed.

Lemma zn_cons : forall a l i, 0 <= i -> zn (a :: l) (i + 1) = zn l i.
Proof. intros. unfold zn. replace (Z.to_nat (i + 1)) with (S (Z.to_nat i)) by lia. auto. Qed.

Lemma brow_half : forall A k x0 x1, 0 < A -> span x0 x1 <= A -> 0 <= k <= A -> length x1 = length x0 ->
  forall i, 0 <= i < lenZ x0 ->
  Z.abs (2 * A * (zn (brow A k x0 x1) i - zn x0 i) - 2 * k * (zn x1 i - zn x0 i)) <= A.
Proof.
  intros A k x0. induction x0 as [|p x0 IH]; intros [|q x1] HA HS Hk HL i Hi; simpl in HS, HL; try discriminate.
  - unfold lenZ in Hi. simpl in Hi. lia.
  - rewrite lenZ_cons in Hi. cbn [brow]. destruct (Z.eq_dec i 0) as [->|Hi0].
    + change (zn (bpos A k p q :: brow A k x0 x1) 0) with (bpos A k p q).
      change (zn (p :: x0) 0) with p. change (zn (q :: x1) 0) with q. apply bpos_half; lia.
    + replace i with (i - 1 + 1) by lia. rewrite !zn_cons by lia. apply IH; try lia.
Qed.

Lemma consecutive_map : forall (R : list Z -> list Z -> Prop) (f : Z -> list Z) n k, (forall i, k <= i < k + Z.of_nat n -> R (f i) (f (i + 1))) ->
  consecutive R (map f (zseq k (S n))).
Proof.
  intros R f n. induction n as [|n IH]; intros k H; [simpl; auto|].
  change (map f (zseq k (S (S n)))) with (f k :: map f (zseq (k + 1) (S n))).
  assert (G : consecutive R (map f (zseq (k + 1) (S n)))) by (apply IH; intros; apply H; lia).
  change (map f (zseq (k + 1) (S n))) with (f (k + 1) :: map f (zseq (k + 1 + 1) n)) in *.
  split; [apply H; lia|exact G].
Qed.

Lemma last_map_zseq : forall (f : Z -> list Z) n k, last (map f (zseq k (S n))) [] = f (k + Z.of_nat n).
Proof.
  intros. rewrite zseq_S, map_app. cbn [map]. apply last_last.
Qed.

Lemma nth_zseq_map : forall (f : Z -> list Z) n k i, (i < n)%nat -> nth i (map f (zseq k n)) [] = f (k + Z.of_nat i).
Proof.
  intros f n. induction n as [|n IH]; intros k i Hi; [lia|]. destruct i as [|i]; cbn [zseq map nth].
  - f_equal. lia.
  - rewrite IH by lia. f_equal. lia.
Qed.

Lemma bresenham_path : forall fuel x0 x1, (1 <= length x0 <= 3)%nat -> length x1 = length x0 -> x0 <> x1 ->
  span x0 x1 < 2 ^ 30 -> (Z.to_nat (span x0 x1) < fuel)%nat ->
  exists rows, path fuel x0 x1 Bresenham = Ok rows /\ path_between (some_closer x1) x0 x1 rows /\
    lenZ rows = span x0 x1 + 1 /\
    forall k i, 0 <= k <= span x0 x1 -> 0 <= i < lenZ x0 ->
      Z.abs (2 * span x0 x1 * (zn (nth (Z.to_nat k) rows []) i - zn x0 i) - 2 * k * (zn x1 i - zn x0 i)) <= span x0 x1.
Proof.
  intros fuel x0 x1 HL HL' HN HS Hf. pose proof (span_pos x0 x1 HL' HN) as HP.
  eexists. split; [apply bresenham_ok; auto; lia|]. split; [|split].
  - split; [|split].
    + cbn [zseq map hd_error]. rewrite brow_0; auto.
    + rewrite last_map_zseq. replace (0 + Z.of_nat (Z.to_nat (span x0 x1))) with (span x0 x1) by lia. apply brow_end; auto.
    + apply consecutive_map. intros i Hi. split; [apply brow_step; auto; lia|apply brow_neq; auto].
  - unfold lenZ. rewrite map_length, zseq_length. lia.
  - intros k i Hk Hi. rewrite nth_zseq_map by lia. replace (0 + Z.of_nat (Z.to_nat k)) with k by lia.
    apply brow_half; auto; lia.
Qed.

(** ** Translation *)

Lemma brow_shift : forall A k x0 x1, length x1 = length x0 ->
  brow A k x0 x1 = shift (brow A k (repeat 0 (length x0)) (diff x1 x0)) x0.
Proof.
  intros A k x0. induction x0 as [|p x0 IH]; intros [|q x1] HL; simpl in HL; try discriminate; auto.
  cbn [brow length repeat]. rewrite (IH x1) by lia. unfold diff, shift. cbn [combine map fst snd brow]. f_equal.
  unfold bpos. rewrite !Z.sub_0_r. lia.
Qed.

Lemma span_diff : forall x0 x1, length x1 = length x0 -> span (repeat 0 (length x0)) (diff x1 x0) = span x0 x1.
Proof.
  induction x0 as [|p x0 IH]; intros [|q x1] HL; simpl in *; try discriminate; auto.
  f_equal; [f_equal; lia|apply IH; lia].
Qed.

Lemma diff_length : forall x0 x1, length x1 = length x0 -> length (diff x1 x0) = length x0.
Proof. intros. unfold diff. rewrite map_length, combine_length. lia. Qed.

Lemma bresenham_shift : forall fuel x0 x1, (1 <= length x0 <= 3)%nat -> length x1 = length x0 -> x0 <> x1 ->
  span x0 x1 < 2 ^ 30 -> (Z.to_nat (span x0 x1) < fuel)%nat ->
  exists rows, path fuel (repeat 0 (length x0)) (diff x1 x0) Bresenham = Ok rows /\
    path fuel x0 x1 Bresenham = Ok (map (fun r => shift r x0) rows).
Proof.
  intros fuel x0 x1 HL HL' HN HS Hf. pose proof (span_pos x0 x1 HL' HN) as HP.
  eexists. split.
  - apply bresenham_ok; rewrite ?repeat_length, ?diff_length, ?span_diff; auto; lia.
  - cbn [path]. rewrite bresenham_ok by (auto; lia). f_equal. rewrite span_diff by auto. rewrite map_map.
    apply map_ext. intros k. apply brow_shift; auto.
Qed.
