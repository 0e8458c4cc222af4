(** * StructureVarTop: proofs about the variance of [Structure] *)

From Coq Require Import ZArith List Bool Lia Reals Lra Permutation.
From Verif Require Import Base BaseLemmas Structure SpecStructure StructureProofs StructureProofs2 StructureTop StructureOrder StructureVar SpecStructureVar.
Import ListNotations.
Open Scope Z_scope.

(** ** The flag and the averages *)

Definition rmap {A B} (f : A -> B) (x : res A) : res B :=
  match x with Ok a => Ok (f a) | Throw => Throw | UB => UB | NoFuel => NoFuel end.

Lemma vaccumulate_base : forall cv st shape x, rmap vs_base (vaccumulate cv st shape x) = accumulate (option_map vs_base st) shape x.
Proof.
  intros cv [st|] shape x; cbn [option_map]; unfold vaccumulate.
  - cbn [bind]. destruct (accumulate (Some (vs_base st)) shape x); reflexivity.
  - unfold vallocate. destruct (allocate shape) as [b| | |] eqn:E; cbn [bind]; unfold accumulate; rewrite ?E; try reflexivity.
    cbn [vs_base bind]. destruct (shape_eqb (st_shape b) shape); reflexivity.
Qed.

Lemma rmap_bind : forall {A B C} (f : B -> C) (x : res A) k, rmap f (bind x k) = bind x (fun a => rmap f (k a)).
Proof. intros A B C f [a| | |] k; reflexivity. Qed.

Lemma bind_ext : forall {A B} (x : res A) (k k' : A -> res B), (forall a, k a = k' a) -> bind x k = bind x k'.
Proof. intros A B [a| | |] k k' H; cbn; auto. Qed.

Lemma vadd_base : forall cv st d junk, rmap vs_base (vadd_sample cv st d junk) = add_sample (option_map vs_base st) d junk.
Proof.
  intros cv st [n u|n m u|n u|n m u] junk; cbn [vadd_sample add_sample]; rewrite rmap_bind; apply bind_ext; intros r; apply vaccumulate_base.
Qed.

Lemma vadd_samples_base : forall cv l st, rmap (option_map vs_base) (vadd_samples cv st l) = add_samples (option_map vs_base st) l.
Proof.
  intros cv. induction l as [|x l IH]; intros st; [reflexivity|]. unfold vadd_samples, add_samples. cbn [foldM].
  rewrite <- (vadd_base cv). rewrite rmap_bind. destruct (vadd_sample cv st (fst x) (snd x)) as [s| | |]; cbn [bind rmap]; auto. apply (IH (Some s)).
Qed.

Lemma flag_irrelevant : forall cv cv' l, rmap (option_map vs_base) (vadd_samples cv None l) = rmap (option_map vs_base) (vadd_samples cv' None l).
Proof. intros. rewrite !vadd_samples_base. reflexivity. Qed.

Lemma averages_as_before : forall cv l,
  match vadd_samples cv None l, add_samples None l with
  | Ok (Some st), Ok (Some st') => st_shape (vs_base st) = st_shape st' /\ forall i, vmean st i = mean st' i
  | Ok None, Ok None => True
  | Throw, Throw => True
  | _, _ => False
  end.
Proof.
  intros cv l. pose proof (vadd_samples_base cv l None) as H. cbn [option_map] in H. rewrite <- H. clear H.
  assert (NU : forall st, match add_samples st l with Ok _ | Throw => True | _ => False end).
  { induction l as [|x l IH]; intros st; [exact I|]. unfold add_samples. cbn [foldM]. assert (A : match add_sample st (fst x) (snd x) with Ok _ | Throw => True | _ => False end).
    { assert (AC : forall st shape f, match accumulate st shape f with Ok _ | Throw => True | _ => False end).
      { intros st' shape f. unfold accumulate, allocate. destruct st' as [s|]; cbn [bind].
        - destruct (shape_eqb _ _); exact I.
        - destruct shape as [|a [|b [|c t]]]; cbn [bind]; auto; [destruct (shape_eqb _ _); exact I|]. destruct (Bool.eqb _ _); cbn [bind]; auto. destruct (shape_eqb _ _); exact I. }
      destruct (fst x) as [n u|n m u|n u|n m u]; cbn [add_sample].
      - destruct (Z_le_gt_dec 1 n) as [L|G]; [destruct (sample1_ok Float n u (snd x 0) L) as (r & -> & _); apply AC|]. unfold sample1. replace (n <? 1) with true by lia. exact I.
      - destruct (Z_le_gt_dec 1 n) as [L|G]; [destruct (Z_le_gt_dec 1 m) as [L'|G']; [destruct (sample2_ok Float n m u (snd x) L L') as (r & -> & _); apply AC|]|]; unfold sample2.
        + replace ((n <? 1) || (m <? 1)) with true by lia. exact I.
        + replace ((n <? 1) || (m <? 1)) with true by lia. exact I.
      - destruct (Z_le_gt_dec 1 n) as [L|G]; [destruct (sample1_ok Integer n (fun j => IZR (u j)) (snd x 0) L) as (r & -> & _); apply AC|]. unfold sample1. replace (n <? 1) with true by lia. exact I.
      - destruct (Z_le_gt_dec 1 n) as [L|G]; [destruct (Z_le_gt_dec 1 m) as [L'|G']; [destruct (sample2_ok Integer n m (fun a b => IZR (u a b)) (snd x) L L') as (r & -> & _); apply AC|]|]; unfold sample2.
        + replace ((n <? 1) || (m <? 1)) with true by lia. exact I.
        + replace ((n <? 1) || (m <? 1)) with true by lia. exact I. }
    destruct (add_sample st (fst x) (snd x)); cbn [bind]; try contradiction; auto. apply IH. }
  specialize (NU None). pose proof (vadd_samples_base cv l None) as H. cbn [option_map] in H. rewrite <- H in NU. clear H.
  destruct (vadd_samples cv None l) as [[s|]| | |]; cbn [rmap option_map] in *; auto.
Qed.

(** ** Sums of squares *)

Section History.
  Variable shape : list Z.
  Variable I : list Z -> Prop.
  Variable V : data * (Z -> Z -> R) -> list Z -> R.

  Definition vcontributes (x : data * (Z -> Z -> R)) : Prop :=
    exists f, (forall st, vadd_sample true st (fst x) (snd x) = vaccumulate true st shape f) /\
              (forall i, I i -> f i = V x i).

  Lemma vhistory_from : forall l st g, (forall x, In x l -> vcontributes x) -> st_shape (vs_base st) = shape -> vs_second st = Some g ->
    exists st' g', vadd_samples true (Some st) l = Ok (Some st') /\ st_shape (vs_base st') = shape /\ vs_second st' = Some g' /\
      st_norm (vs_base st') = st_norm (vs_base st) + lenZ l /\
      (forall i, I i -> st_first (vs_base st') i =
        match st_first (vs_base st) i with Some y => Some (y + fold_right Rplus 0 (map (fun x => V x i) l))%R | None => None end) /\
      forall i, I i -> g' i =
        match g i with Some y => Some (y + fold_right Rplus 0 (map (fun x => V x i * V x i) l))%R | None => None end.
  Proof.
    induction l as [|x t IH]; intros st g H HS HG.
    - exists st, g. split; [reflexivity|]. split; [assumption|]. split; [assumption|]. split; [unfold lenZ; cbn; lia|].
      split; intros i _; cbn; [destruct (st_first (vs_base st) i)|destruct (g i)]; try reflexivity; f_equal; ring.
    - destruct (H x (or_introl eq_refl)) as (f & E & F). unfold vadd_samples. cbn [foldM].
      rewrite E. unfold vaccumulate. cbn [bind]. unfold accumulate. cbn [bind]. rewrite HS, shape_refl, HG. cbn [bind].
      match goal with |- context [Some ?s] => match s with mkvstat _ _ => set (st1 := s) end end.
      destruct (IH st1 _ ltac:(intros; apply H; now right) eq_refl eq_refl) as (st' & g' & E' & S' & G' & N' & F' & F2').
      exists st', g'. split; [exact E'|]. split; [exact S'|]. split; [exact G'|]. split; [rewrite N'; unfold lenZ; cbn [st_norm vs_base st1 length]; lia|].
      split; intros i Hi.
      + rewrite F' by assumption. unfold st1. cbn [st_first vs_base]. destruct (st_first (vs_base st) i); [|reflexivity].
        cbn [map fold_right]. rewrite F by assumption. f_equal. ring.
      + rewrite F2' by assumption. destruct (g i); [|reflexivity]. cbn [map fold_right]. rewrite F by assumption. f_equal. ring.
  Qed.
End History.

(** ** The variance from the two moments *)

Lemma spread_moments : forall {A} (f : A -> R) (l : list A), (2 <= length l)%nat ->
  spread f l = ((fold_right Rplus 0 (map (fun x => f x * f x) l) / INR (length l) - average f l * average f l) * (INR (length l) / (INR (length l) - 1)))%R.
Proof.
  intros A f l HL. unfold spread. set (m := average f l). assert (HN : (2 <= INR (length l))%R) by (apply le_INR in HL; exact HL).
  assert (E : forall c k, fold_right Rplus 0%R (map (fun x => (f x - c) ^ 2)%R k) =
    (fold_right Rplus 0 (map (fun x => f x * f x) k) - 2 * c * fold_right Rplus 0 (map f k) + INR (length k) * (c * c))%R).
  { intros c k. induction k as [|x k IH]; [cbn; ring|]. cbn [map fold_right length]. rewrite IH, S_INR. ring. }
  rewrite E. assert (M : fold_right Rplus 0%R (map f l) = (INR (length l) * m)%R) by (unfold m, average; field; lra).
  rewrite M. field. lra.
Qed.

Lemma spread_nonneg : forall {A} (f : A -> R) (l : list A), (2 <= length l)%nat ->
  (0 <= spread f l)%R /\ (spread f l = 0%R <-> forall x y, In x l -> In y l -> f x = f y).
Proof.
  intros A f l HL. unfold spread. set (m := average f l). assert (HN : (2 <= INR (length l))%R) by (apply le_INR in HL; exact HL).
  assert (P : forall k, (0 <= fold_right Rplus 0%R (map (fun x => (f x - m) ^ 2)%R k))%R).
  { induction k as [|x k IH]; cbn [map fold_right]; [lra|]. pose proof (pow2_ge_0 (f x - m)). lra. }
  assert (Q : (0 < / (INR (length l) - 1))%R) by (apply Rinv_0_lt_compat; lra). unfold Rdiv. split; [apply Rmult_le_pos; [apply P|lra]|].
  split; intros H.
  - assert (S0 : fold_right Rplus 0%R (map (fun x => (f x - m) ^ 2)%R l) = 0%R) by (apply Rmult_integral in H; lra).
    assert (X : forall x, In x l -> f x = m); [|intros x y Hx Hy; rewrite !X; auto].
    clearbody m. clear H HL HN Q. induction l as [|z l IH]; intros x IN; [destruct IN|]. cbn [map fold_right] in S0. pose proof (P l) as Pl. pose proof (pow2_ge_0 (f z - m)) as Pz. destruct IN as [-> |IN].
    + assert (E0 : ((f x - m) ^ 2 = 0)%R) by lra. replace ((f x - m) ^ 2)%R with ((f x - m) * (f x - m))%R in E0 by ring. apply Rmult_integral in E0. lra.
    + apply IH; auto. lra.
  - destruct l as [|z l]; [cbn in HL; lia|]. assert (M : m = f z).
    { unfold m, average. assert (X : forall k, (forall x, In x k -> f x = f z) -> fold_right Rplus 0%R (map f k) = (INR (length k) * f z)%R).
      { induction k as [|x k IH]; intros HK; [cbn; ring|]. cbn [map fold_right length]. rewrite IH by (intros; apply HK; now right). rewrite (HK x) by now left. rewrite S_INR. ring. }
      rewrite X; [field; lra|]. intros x Hx. apply H; auto. now left. }
    assert (Z0 : forall k, (forall x, In x k -> f x = f z) -> fold_right Rplus 0%R (map (fun x => (f x - m) ^ 2)%R k) = 0%R).
    { induction k as [|x k IH]; intros HK; [reflexivity|]. cbn [map fold_right]. rewrite IH by (intros; apply HK; now right). rewrite M, (HK x) by now left. ring. }
    rewrite Z0; [ring|]. intros x Hx. apply H; auto. now left.
Qed.

Lemma spread_ext : forall {A} (f g : A -> R) l, (forall x, In x l -> f x = g x) -> spread f l = spread g l.
Proof. intros A f g l H. unfold spread. f_equal. f_equal. apply map_ext_in. intros x Hx. rewrite H, (average_ext f g l); auto. Qed.

Lemma spread_map : forall {A B} (h : A -> B) f l, spread f (map h l) = spread (fun x => f (h x)) l.
Proof. intros. unfold spread. rewrite map_map, map_length, average_map. reflexivity. Qed.

Lemma sum_permuted : forall {A} (f : A -> R) l l', Permutation l l' -> fold_right Rplus 0%R (map f l) = fold_right Rplus 0%R (map f l').
Proof. intros A f l l' H. induction H; cbn [map fold_right]; lra. Qed.

Lemma spread_permuted : forall {A} (f : A -> R) l l', Permutation l l' -> spread f l = spread f l'.
Proof.
  intros A f l l' H. unfold spread, average. rewrite (sum_permuted f l l' H), (Permutation_length H). f_equal. apply sum_permuted. exact H.
Qed.

(** ** Both together *)

Lemma vhistory : forall shape (I : list Z -> Prop) V start l st0, vallocate true shape = Ok st0 -> st_shape (vs_base st0) = shape -> st_norm (vs_base st0) = 0 ->
  start = None \/ start = Some st0 -> (2 <= length l)%nat -> (forall x, In x l -> vcontributes shape I V x) ->
  (forall i, I i -> st_first (vs_base st0) i = second0 shape i) -> (forall i, I i -> second0 shape i = None \/ second0 shape i = Some 0%R) ->
  exists st', vadd_samples true start l = Ok (Some st') /\
    forall i, I i -> variance st' i = Ok (match second0 shape i with Some _ => Some (spread (fun x => V x i) l) | None => None end).
Proof.
  intros shape I V start l st0 A HS HN HI HL H HF HZ.
  assert (S0 : vs_second st0 = Some (second0 shape)) by (unfold vallocate in A; destruct (allocate shape); cbn [bind] in A; inversion A; reflexivity).
  destruct (vhistory_from shape I V l st0 _ H HS S0) as (st' & g' & E & S' & G & N & F & F2).
  exists st'. split.
  - destruct HI as [-> | ->]; [|exact E]. rewrite <- E. destruct l as [|x t]; [cbn in HL; lia|].
    unfold vadd_samples. cbn [foldM]. destruct (H x (or_introl eq_refl)) as (f & Ef & _). rewrite !Ef.
    unfold vaccumulate. rewrite A. reflexivity.
  - intros i Hi. unfold variance. rewrite G, N, HN, Z.add_0_l. replace (lenZ l <? 2) with false by (unfold lenZ; lia).
    unfold vmean, mean. rewrite F2, F, N, HN, HF, Z.add_0_l by assumption. destruct (HZ i Hi) as [-> | ->]; [reflexivity|].
    rewrite !Rplus_0_l. unfold lenZ. rewrite <- INR_IZR_INZ. f_equal. f_equal. symmetry. apply spread_moments. exact HL.
Qed.

Lemma variance1_all : forall n start xs, 1 <= n -> vfresh true [n] start -> (2 <= length xs)%nat -> Forall (fun x => shape_of (fst x) = [n]) xs ->
  exists st, vadd_samples true start xs = Ok (Some st) /\
    forall k, 0 <= k < n ->
      (~ nyquist n k -> variance st [k] = Ok (Some (spread (fun x => value1 x [k]) xs))) /\
      (nyquist n k -> variance st [k] = Ok None).
Proof.
  intros n start xs Hn HF HL HS. rewrite Forall_forall in HS.
  assert (A : exists st0, vallocate true [n] = Ok st0 /\ st_shape (vs_base st0) = [n] /\ st_norm (vs_base st0) = 0 /\ forall i, st_first (vs_base st0) i = second0 [n] i).
  { eexists. split; [reflexivity|]. split; [reflexivity|]. split; [reflexivity|]. intros i. cbn [vs_base st_first second0]. destruct (n mod 2 =? 0); reflexivity. }
  destruct A as (st0 & A & A1 & A2 & A3).
  destruct (vhistory [n] (fun i => exists k, i = [k] /\ 0 <= k < n) value1 start xs st0 A A1 A2) as (st & E & M).
  - destruct HF as [-> |(s & B & ->)]; [now left|]. right. congruence.
  - exact HL.
  - intros [d junk] Hx. specialize (HS _ Hx). cbn [fst] in HS.
    destruct d as [n' u|n' m u|n' u|n' m u]; cbn [shape_of] in HS; try discriminate; injection HS as ->;
    [destruct (sample1_ok Float n u (junk 0) Hn) as (r & Er & Hr)|destruct (sample1_ok Integer n (fun j => IZR (u j)) (junk 0) Hn) as (r & Er & Hr)];
    (exists (fun i => vat r (nth 0 i 0)); split;
     [intro st; cbn [vadd_sample fst snd]; now rewrite Er|
      intros i (k & -> & Hk); cbn [nth]; unfold value1; cbn [fst snd nth];
      destruct (Hr k Hk) as [H1 H2]; unfold nyquist in *; destruct (2 * k =? n) eqn:Q; [apply H2; lia|apply H1; lia]]).
  - auto.
  - intros i _. cbn [second0]. destruct (n mod 2 =? 0); auto. destruct (_ =? _); auto.
  - exists st. split; [exact E|]. intros k Hk. rewrite M by eauto. cbn [second0 nth].
    unfold nyquist. split; intro Q.
    + destruct (n mod 2 =? 0) eqn:EP; auto. replace (k =? n / 2) with false; auto. Z.to_euclidean_division_equations; lia.
    + replace (n mod 2 =? 0) with true by (Z.to_euclidean_division_equations; lia). replace (k =? n / 2) with true by (Z.to_euclidean_division_equations; lia). reflexivity.
Qed.

Lemma variance1 : forall n start l, 1 <= n -> vfresh true [n] start -> (2 <= length l)%nat ->
  exists st, vadd_samples true start (samples1 n l) = Ok (Some st) /\
    forall k, 0 <= k < n ->
      (~ nyquist n k -> variance st [k] = Ok (Some (spread (fun s => power n (fst s) k / IZR n)%R l))) /\
      (nyquist n k -> variance st [k] = Ok None).
Proof.
  intros n start l Hn HF HL. destruct (variance1_all n start (samples1 n l) Hn HF) as (st & E & M).
  - unfold samples1. rewrite map_length. exact HL.
  - apply Forall_forall. intros x Hx. apply in_map_iff in Hx. destruct Hx as (s & <- & _). reflexivity.
  - exists st. split; [exact E|]. intros k Hk. destruct (M k Hk) as [M1 M2]. split; [|exact M2].
    intro Q. rewrite M1 by assumption. f_equal. f_equal. unfold samples1. rewrite spread_map. apply spread_ext. intros x _. unfold value1. cbn [fst snd nth].
    unfold nyquist in Q. replace (2 * k =? n) with false by lia. reflexivity.
Qed.

Lemma variance2_all : forall n m start l, 1 <= n -> 1 <= m -> n mod 2 = m mod 2 -> vfresh true [n; m] start -> (2 <= length l)%nat ->
  exists st, vadd_samples true start (samples2 n m l) = Ok (Some st) /\
    forall i j, 0 <= i < n -> 0 <= j < m ->
      (~ nyquist n i -> ~ nyquist m j ->
         variance st [i; j] = Ok (Some (spread (fun s => entry2 Float n m (fst s) (snd s) i j / IZR (n * m))%R l))) /\
      (nyquist n i \/ nyquist m j -> variance st [i; j] = Ok None).
Proof.
  intros n m start l Hn Hm HP HF HL.
  assert (A : exists st0, vallocate true [n; m] = Ok st0 /\ st_shape (vs_base st0) = [n; m] /\ st_norm (vs_base st0) = 0 /\ forall i, st_first (vs_base st0) i = second0 [n; m] i).
  { unfold vallocate, allocate. rewrite HP, Bool.eqb_reflx. cbn [bind]. eexists. split; [reflexivity|]. split; [reflexivity|]. split; [reflexivity|].
    intros i. cbn [vs_base st_first second0]. rewrite HP. destruct (m mod 2 =? 0); reflexivity. }
  destruct A as (st0 & A & A1 & A2 & A3).
  destruct (vhistory [n; m] (fun i => exists a b, i = [a; b] /\ 0 <= a < n /\ 0 <= b < m) value2 start (samples2 n m l) st0 A A1 A2) as (st & E & M).
  - destruct HF as [-> |(s & B & ->)]; [now left|]. right. congruence.
  - unfold samples2. rewrite map_length. exact HL.
  - intros x Hx. apply in_map_iff in Hx. destruct Hx as (s & <- & _). cbn [fst snd].
    destruct (sample2_ok Float n m (fst s) (snd s) Hn Hm) as (r & Er & Hr).
    exists (fun i => mat_at r (nth 0 i 0) (nth 1 i 0)). split.
    + intro st. cbn [vadd_sample fst snd]. now rewrite Er.
    + intros i (a & b & -> & Ha & Hb). cbn [nth]. unfold value2. cbn [fst snd nth]. now apply Hr.
  - auto.
  - intros i _. cbn [second0]. destruct (n mod 2 =? 0); auto. destruct (_ || _); auto.
  - exists st. split; [exact E|]. intros i j Hi Hj. rewrite M by eauto 6. cbn [second0 nth].
    unfold nyquist. split.
    + intros Q1 Q2. replace (if n mod 2 =? 0 then if (i =? n / 2) || (j =? m / 2) then None else Some 0%R else Some 0%R) with (Some 0%R).
      * f_equal. f_equal. unfold samples2. rewrite spread_map. reflexivity.
      * destruct (n mod 2 =? 0) eqn:EP; auto. replace ((i =? n / 2) || (j =? m / 2)) with false; auto. Z.to_euclidean_division_equations; lia.
    + intro Q. replace (n mod 2 =? 0) with true by (Z.to_euclidean_division_equations; lia).
      replace ((i =? n / 2) || (j =? m / 2)) with true by (Z.to_euclidean_division_equations; lia). reflexivity.
Qed.

Lemma variance2 : forall n m start l, 1 <= n -> 1 <= m -> n mod 2 = m mod 2 -> vfresh true [n; m] start -> (2 <= length l)%nat ->
  exists st, vadd_samples true start (samples2 n m l) = Ok (Some st) /\
    forall i j, 0 <= i < n -> 0 <= j < m ->
      (2 * i < n /\ 2 * j < m \/ n < 2 * i /\ m < 2 * j ->
         variance st [i; j] = Ok (Some (spread (fun s => power2 n m (fst s) i j / IZR (n * m))%R l))) /\
      (nyquist n i \/ nyquist m j -> variance st [i; j] = Ok None).
Proof.
  intros n m start l Hn Hm HP HF HL. destruct (variance2_all n m start l) as (st & E & M); auto.
  exists st. split; [exact E|]. intros i j Hi Hj. destruct (M i j Hi Hj) as [M1 M2]. split; [|exact M2].
  intro Q. rewrite M1 by (unfold nyquist; lia). f_equal. f_equal. apply spread_ext. intros s _. unfold entry2. f_equal.
  replace (2 * i =? n) with false by lia. idtac.
  all: repeat match goal with |- context [if ?b then _ else _] => first [replace b with false by lia|replace b with true by lia]; cbv iota end; reflexivity.
Qed.

(** ** Consequences *)

Lemma variance_nonneg : forall n start l, 1 <= n -> vfresh true [n] start -> (2 <= length l)%nat ->
  exists st, vadd_samples true start (samples1 n l) = Ok (Some st) /\
    forall k, 0 <= k < n -> ~ nyquist n k -> exists v, variance st [k] = Ok (Some v) /\ (0 <= v)%R /\
      (v = 0%R <-> forall s s', In s l -> In s' l -> power n (fst s) k = power n (fst s') k).
Proof.
  intros n start l Hn HF HL. destruct (variance1 n start l Hn HF HL) as (st & E & M). exists st. split; [exact E|].
  intros k Hk Q. eexists. split; [exact (proj1 (M k Hk) Q)|].
  destruct (spread_nonneg (fun s => power n (fst s) k / IZR n)%R l HL) as [A B]. split; [exact A|]. rewrite B.
  assert (N : IZR n <> 0%R) by (apply not_0_IZR; lia).
  split; intros H x y Hx Hy; specialize (H x y Hx Hy).
  - apply (Rmult_eq_compat_r (IZR n)) in H. unfold Rdiv in H. rewrite !Rmult_assoc, Rinv_l, !Rmult_1_r in H by exact N. exact H.
  - rewrite H. reflexivity.
Qed.

Lemma variance_order : forall n l l', 1 <= n -> (2 <= length l)%nat -> Permutation l l' ->
  exists st st', vadd_samples true None (samples1 n l) = Ok (Some st) /\ vadd_samples true None (samples1 n l') = Ok (Some st') /\
    forall k, 0 <= k < n -> variance st [k] = variance st' [k].
Proof.
  intros n l l' Hn HL HP. destruct (variance1 n None l Hn (or_introl eq_refl) HL) as (st & E & M).
  destruct (variance1 n None l' Hn (or_introl eq_refl)) as (st' & E' & M'); [rewrite <- (Permutation_length HP); exact HL|].
  exists st, st'. split; [exact E|]. split; [exact E'|]. intros k Hk. destruct (M k Hk) as [A B]. destruct (M' k Hk) as [A' B'].
  assert (D : nyquist n k \/ ~ nyquist n k) by (unfold nyquist; lia). destruct D as [D|D].
  - rewrite B, B' by exact D. reflexivity.
  - rewrite A, A' by exact D. rewrite (spread_permuted _ l l' HP). reflexivity.
Qed.

Lemma spread_Forall2 : forall {A} (f g : A -> R) l l', Forall2 (fun x y => f x = g y) l l' -> spread f l = spread g l'.
Proof.
  intros A f g l l' H. assert (LN : length l = length l') by (induction H; cbn; auto).
  assert (S : forall l l', Forall2 (fun x y => f x = g y) l l' -> forall h, fold_right Rplus 0%R (map (fun x => h (f x)) l) = fold_right Rplus 0%R (map (fun x => h (g x)) l')).
  { intros k k' K h. induction K; [reflexivity|]. cbn [map fold_right]. rewrite IHK, H0. reflexivity. }
  assert (AV : average f l = average g l') by (unfold average; rewrite LN; f_equal; apply (S l l' H (fun x => x))).
  unfold spread. rewrite AV, LN. f_equal. apply (S l l' H (fun x => (x - average g l') ^ 2)%R).
Qed.

Lemma variance_origin : forall n l l', 1 <= n -> (2 <= length l)%nat ->
  Forall2 (fun s s' => exists t, 0 <= t /\ rotated n t (fst s) (fst s')) l l' ->
  exists st st', vadd_samples true None (samples1 n l) = Ok (Some st) /\ vadd_samples true None (samples1 n l') = Ok (Some st') /\
    forall k, 0 <= k < n -> variance st [k] = variance st' [k].
Proof.
  intros n l l' Hn HL HR. destruct (variance1 n None l Hn (or_introl eq_refl) HL) as (st & E & M).
  assert (LN : length l = length l') by (clear - HR; induction HR; cbn; auto).
  destruct (variance1 n None l' Hn (or_introl eq_refl)) as (st' & E' & M'); [rewrite <- LN; exact HL|].
  exists st, st'. split; [exact E|]. split; [exact E'|]. intros k Hk. destruct (M k Hk) as [A B]. destruct (M' k Hk) as [A' B'].
  assert (D : nyquist n k \/ ~ nyquist n k) by (unfold nyquist; lia). destruct D as [D|D].
  - rewrite B, B' by exact D. reflexivity.
  - rewrite A, A' by exact D. f_equal. f_equal. apply spread_Forall2. clear - HR Hn. induction HR as [|s s' l l' (t & Ht & R) _ IH]; constructor; auto.
    f_equal. symmetry. apply (power_rotated n t); [lia|assumption|assumption].
Qed.

Lemma spread_two : forall {A} (f : A -> R) x y, spread f [x; y] = ((f x - f y) ^ 2 / 2)%R.
Proof. intros. unfold spread, average. cbn [map fold_right length INR]. field. Qed.

Lemma variance2_refuted : exists n m u junk junk' i j st v, 0 <= i < n /\ 0 <= j < m /\ ~ nyquist n i /\ ~ nyquist m j /\
  vadd_samples true None (samples2 n m [(u, junk); (u, junk')]) = Ok (Some st) /\ variance st [i; j] = Ok (Some v) /\ (0 < v)%R.
Proof.
  destruct (variance2_all 3 3 None [(delta 0 0, fun _ _ => 0%R); (delta 0 0, fun _ _ => 1%R)]) as (st & E & M); try (cbn; lia); [now left|].
  exists 3, 3, (delta 0 0), (fun _ _ => 0%R), (fun _ _ => 1%R), 0, 2, st. eexists. unfold nyquist. do 4 (split; [lia|]). split; [exact E|].
  split; [apply (proj1 (M 0 2 ltac:(lia) ltac:(lia))); unfold nyquist; lia|]. rewrite spread_two.
  cbn [fst snd]. assert (A : forall c, entry2 Float 3 3 (delta 0 0) (fun _ _ => c) 0 2 = c) by reflexivity. rewrite !A. change (3 * 3) with 9. lra.
Qed.

Lemma sum_two : forall f, sum_below 3 f = (f 0%Z + (f 1%Z + (f 2%Z + 0)))%R.
Proof. intros. reflexivity. Qed.

Lemma variance_case : exists st, vadd_samples true None (samples1 3 [((fun j => IZR j), fun _ _ => 7%R); ((fun _ => 0%R), fun _ _ => 8%R)]) = Ok (Some st) /\
  vmean st [0] = Some (3 / 2)%R /\ variance st [0] = Ok (Some (9 / 2)%R).
Proof.
  pose (l := [((fun j => IZR j), (fun _ _ : Z => 7%R)); ((fun _ : Z => 0%R), fun _ _ => 8%R)]).
  destruct (variance1 3 None l) as (st & E & M); [lia|now left|cbn; lia|]. exists st. split; [exact E|].
  assert (P0 : power 3 (fun j => IZR j) 0 = 9%R).
  { unfold power. rewrite !sum_two. replace (2 * PI * (IZR 0 * IZR 0 / IZR 3))%R with 0%R by field.
    replace (2 * PI * (IZR 1 * IZR 0 / IZR 3))%R with 0%R by field. replace (2 * PI * (IZR 2 * IZR 0 / IZR 3))%R with 0%R by field. rewrite cos_0, sin_0. ring. }
  assert (P1 : power 3 (fun _ => 0%R) 0 = 0%R) by (unfold power; rewrite !sum_two; ring).
  split.
  - pose proof (averages_as_before true (samples1 3 l)) as A. fold l in E. rewrite E in A.
    destruct (structure1 3 None l) as (st' & E' & _ & M'); [lia|now left|discriminate|]. rewrite E' in A. destruct A as [_ A]. rewrite A.
    rewrite (proj1 (M' 0 ltac:(lia))) by (unfold nyquist; lia). f_equal. unfold average, l. cbn [map fold_right fst length INR]. rewrite P0, P1. field.
  - rewrite (proj1 (M 0 ltac:(lia))) by (unfold nyquist; lia). f_equal. f_equal. unfold l. rewrite spread_two. cbn [fst]. rewrite P0, P1. field.
Qed.
