(** * EnsembleFloatMask: what the values of masked pixels do to the statistics *)

From Coq Require Import ZArith Reals Lia Lra Bool List.
From Flocq Require Import Core BinarySingleNaN.
From Verif Require Import Base BaseLemmas Array3 Path Double Ensemble SpecCluster SpecEnsemble EnsembleFloat SpecDouble EnsembleFloatProofs EnsembleFloatTop.
Import ListNotations.
Open Scope Z_scope.

(** ** Numbers *)

Lemma same_refl : forall x, same_double x x.
Proof. intros. left. reflexivity. Qed.

Lemma zero_plus : forall s y, same_double (dplus (B754_zero s) y) y.
Proof.
  intros s [t|t| |t m e H]; unfold dplus; cbn.
  - right. destruct (Bool.eqb s t); eauto.
  - left. reflexivity.
  - left. reflexivity.
  - left. reflexivity.
Qed.

Lemma plus_zero : forall y s, same_double (dplus y (B754_zero s)) y.
Proof.
  intros [t|t| |t m e H] s; unfold dplus; cbn.
  - right. destruct (Bool.eqb t s); eauto.
  - left. reflexivity.
  - left. reflexivity.
  - left. reflexivity.
Qed.

Lemma same_sym : forall x y, same_double x y -> same_double y x.
Proof. intros x y [->|(s & t & -> & ->)]; [left; reflexivity|right; eauto]. Qed.

Lemma same_trans : forall x y z, same_double x y -> same_double y z -> same_double x z.
Proof.
  intros x y z [->|(s & t & -> & ->)] H; [exact H|]. destruct H as [<-|(u & v & E & ->)]; right; eauto.
Qed.

Lemma same_plus : forall x x' y y', same_double x x' -> same_double y y' -> same_double (dplus x y) (dplus x' y').
Proof.
  intros x x' y y' [<-|(s & t & -> & ->)] [<-|(u & v & -> & ->)].
  - apply same_refl.
  - eapply same_trans; [apply plus_zero|apply same_sym, plus_zero].
  - eapply same_trans; [apply zero_plus|apply same_sym, zero_plus].
  - eapply same_trans; [apply plus_zero|]. apply same_sym. eapply same_trans; [apply plus_zero|]. right. eauto.
Qed.

Lemma inverse_one : inverse 1 = B754_zero false.
Proof. vm_compute. reflexivity. Qed.

Lemma times_zero : forall x s, is_finite x = true -> exists t, dtimes x (B754_zero s) = B754_zero t.
Proof. intros [t|t| |t m e H] s F; try discriminate; unfold dtimes; cbn; eauto. Qed.

Lemma same_div : forall x x' y, same_double x x' -> same_double (ddiv x y) (ddiv x' y).
Proof.
  intros x x' y [<-|(s & t & -> & ->)]; [apply same_refl|].
  destruct y as [u|u| |u m e H]; unfold ddiv; cbn; try (left; reflexivity); right; eauto.
Qed.

Lemma same_safe : forall x y, same_double x y -> fsafe x = fsafe y.
Proof. intros x y [<-|(s & t & -> & ->)]; [reflexivity|]. destruct s, t; reflexivity. Qed.

(** ** Three arrays of the same shape *)

Inductive Forall3 {A B C} (R : A -> B -> C -> Prop) : list A -> list B -> list C -> Prop :=
| F3_nil : Forall3 R [] [] []
| F3_cons : forall a b c l m n, R a b c -> Forall3 R l m n -> Forall3 R (a :: l) (b :: m) (c :: n).

Definition sim3 {A B C} (R : A -> B -> C -> Prop) (a : arr A) (b : arr B) (c : arr C) : Prop :=
  d0 a = d0 c /\ d1 a = d1 c /\ d2 a = d2 c /\ d0 b = d0 c /\ d1 b = d1 c /\ d2 b = d2 c /\ Forall3 R (dat a) (dat b) (dat c).

Lemma Forall3_nth : forall A B C (R : A -> B -> C -> Prop) l m n k x y z, Forall3 R l m n -> R x y z -> R (nth k l x) (nth k m y) (nth k n z).
Proof. intros A B C R l m n k x y z H D. revert k. induction H; intros [|k]; cbn; auto. Qed.

Lemma at3_sim3 : forall A B C (R : A -> B -> C -> Prop) x y z a b c h i j, R x y z -> sim3 R a b c ->
  R (at3 x a h i j) (at3 y b h i j) (at3 z c h i j).
Proof.
  intros A B C R x y z a b c h i j D (E0 & E1 & E2 & E3 & E4 & E5 & F). unfold at3. rewrite E1, E2, E4, E5. apply Forall3_nth; auto.
Qed.

Lemma tab_sim3 : forall A B C (R : A -> B -> C -> Prop) n0 n1 n2 f g k,
  (forall h i j, R (f h i j) (g h i j) (k h i j)) -> sim3 R (tab n0 n1 n2 f) (tab n0 n1 n2 g) (tab n0 n1 n2 k).
Proof.
  intros A B C R n0 n1 n2 f g k H. unfold tab, sim3. cbn [d0 d1 d2 dat]. repeat split.
  induction (zseq 0 (Z.to_nat (n0 * n1 * n2))) as [|p l IH]; cbn [map]; constructor; auto.
Qed.

Lemma inb_sim3 : forall A B C (R : A -> B -> C -> Prop) a b c h i j, sim3 R a b c -> inb a h i j = inb c h i j /\ inb b h i j = inb c h i j.
Proof. intros A B C R a b c h i j (E0 & E1 & E2 & E3 & E4 & E5 & _). unfold inb. rewrite E0, E1, E2, E3, E4, E5. auto. Qed.

Lemma pad_constant_sim3 : forall A B C (R : A -> B -> C -> Prop) x y z a b c P, R x y z -> sim3 R a b c ->
  sim3 R (pad_constant x a P) (pad_constant y b P) (pad_constant z c P).
Proof.
  intros A B C R x y z a b c [[[p0 q0] [p1 q1]] [p2 q2]] D H. unfold pad_constant. pose proof H as (E0 & E1 & E2 & E3 & E4 & E5 & _).
  rewrite E0, E1, E2, E3, E4, E5. apply tab_sim3. intros h i j.
  destruct (inb_sim3 _ _ _ _ _ _ _ (h - p0) (i - p1) (j - p2) H) as [I1 I2]. rewrite I1, I2. destruct (inb c _ _ _); auto. apply at3_sim3; auto.
Qed.

Lemma pad_mode_sim3 : forall A B C (R : A -> B -> C -> Prop) per x y z a b c P, R x y z -> sim3 R a b c ->
  (exists F G H, pad_mode per x a P = Ok F /\ pad_mode per y b P = Ok G /\ pad_mode per z c P = Ok H /\ sim3 R F G H) \/
  (pad_mode per x a P = UB /\ pad_mode per y b P = UB /\ pad_mode per z c P = UB).
Proof.
  intros A B C R per x y z a b c P D H. unfold pad_mode. destruct per.
  - destruct P as [[[p0 q0] [p1 q1]] [p2 q2]]. unfold pad_periodic. pose proof H as (E0 & E1 & E2 & E3 & E4 & E5 & _).
    rewrite E0, E1, E2, E3, E4, E5. destruct (_ && _); [left|right; auto]. do 3 eexists. do 3 (split; [reflexivity|]).
    apply tab_sim3 with (R := R). intros h i j. apply at3_sim3; auto.
  - left. do 3 eexists. do 3 (split; [reflexivity|]). apply pad_constant_sim3; auto.
Qed.

Lemma window_sim3 : forall A B C (R : A -> B -> C -> Prop) x y z P a b c p, R x y z -> sim3 R a b c ->
  (exists u v w, window x P a p = Ok u /\ window y P b p = Ok v /\ window z P c p = Ok w /\ forall i j k, R (u i j k) (v i j k) (w i j k)) \/
  (window x P a p = UB /\ window y P b p = UB /\ window z P c p = UB).
Proof.
  intros A B C R x y z [[[p0 q0] [p1 q1]] [p2 q2]] a b c [[h i] j] D S. unfold window.
  destruct (inb_sim3 _ _ _ _ _ _ _ (h - p0) (i - p1) (j - p2) S) as [I1 I2].
  destruct (inb_sim3 _ _ _ _ _ _ _ (h + q0) (i + q1) (j + q2) S) as [I3 I4]. rewrite I1, I2, I3, I4.
  destruct (_ && _); [left|right; auto]. do 3 eexists. do 3 (split; [reflexivity|]). intros. cbv beta. apply at3_sim3 with (R := R); auto.
Qed.

Lemma Forall3_nth_error : forall A B C (R : A -> B -> C -> Prop) l m n k, Forall3 R l m n ->
  match nth_error l k, nth_error m k, nth_error n k with Some a, Some b, Some c => R a b c | None, None, None => True | _, _, _ => False end.
Proof. intros A B C R l m n k H. revert k. induction H; intros [|k]; cbn; auto. apply IHForall3. Qed.

Lemma aget3_sim3 : forall A B C (R : A -> B -> C -> Prop) a b c p, sim3 R a b c ->
  (exists u v w, aget3 a p = Ok u /\ aget3 b p = Ok v /\ aget3 c p = Ok w /\ R u v w) \/
  (aget3 a p = UB /\ aget3 b p = UB /\ aget3 c p = UB).
Proof.
  intros A B C R a b c [[h i] j] S. unfold aget3, aget. destruct (inb_sim3 _ _ _ _ _ _ _ h i j S) as [I1 I2]. rewrite I1, I2.
  destruct (inb c h i j); [|right; auto]. destruct S as (E0 & E1 & E2 & E3 & E4 & E5 & F). rewrite E1, E2, E4, E5.
  unfold vget. destruct (_ <? 0); [right; auto|].
  pose proof (Forall3_nth_error _ _ _ _ _ _ _ (Z.to_nat (flat3 (d1 c) (d2 c) h i j)) F) as N.
  destruct (nth_error (dat a) _), (nth_error (dat b) _), (nth_error (dat c) _); try contradiction; [left|right; auto].
  do 3 eexists. repeat split; auto.
Qed.

Lemma sim3_positions : forall A B C (R : A -> B -> C -> Prop) a b c P, sim3 R a b c -> positions P a = positions P b.
Proof.
  intros A B C R a b c [[[p0 q0] [p1 q1]] [p2 q2]] (E0 & E1 & E2 & E3 & E4 & E5 & _). unfold positions. rewrite E0, E1, E2, E3, E4, E5. reflexivity.
Qed.

(** ** The state *)

Definition fsim (x y : fens) : Prop :=
  f_stat x = f_stat y /\ f_per x = f_per y /\ f_var x = f_var y /\ f_roi x = f_roi y /\
  sim same_double (f_first x) (f_first y) /\ sim same_double (f_second x) (f_second y) /\ sim same_double (f_norm x) (f_norm y).

Lemma sim_same_refl : forall a : arr double, sim same_double a a.
Proof. intros a. repeat split. induction (dat a); constructor; auto. apply same_refl. Qed.

Lemma fsim_refl : forall x, fsim x x.
Proof. intros x. unfold fsim. auto 10 using sim_same_refl. Qed.

Lemma fplus_sim : forall A B v w, sim same_double A B -> (forall a b c, same_double (v a b c) (w a b c)) ->
  sim same_double (fplus A v) (fplus B w).
Proof.
  intros A B v w H V. unfold fplus. pose proof H as (E0 & E1 & E2 & _). rewrite E0, E1, E2.
  apply tab_sim. intros. apply same_plus; auto. apply at3_sim; auto. apply same_refl.
Qed.

Lemma foldM_alike : forall A S T (R : S -> T -> Prop) (F : S -> A -> res S) (G : T -> A -> res T) l s t,
  (forall s t x, R s t -> alike R (F s x) (G t x)) -> R s t -> alike R (foldM F l s) (foldM G l t).
Proof.
  intros A S T R F G l s t H. revert s t. induction l as [|x l IH]; intros s t HR; cbn [foldM]; [exact HR|].
  eapply alike_bind; [apply H; exact HR|]. intros a b Hab. apply IH. exact Hab.
Qed.

(** The result only depends on the data. *)
Lemma fsim_same : forall L x y, root_of_zero L -> fsim x y -> same_fdata L x y.
Proof.
  intros L x y HL (Es & _ & _ & _ & (_ & _ & _ & F1) & (_ & _ & _ & F2) & (_ & _ & _ & F3)). unfold same_fdata, fdata_first, fdata_second, fnorm.
  repeat split; auto. unfold fresult. rewrite <- Es.
  remember (dat (f_first x)) as l eqn:E1. remember (dat (f_first y)) as l' eqn:E2. remember (dat (f_norm x)) as m eqn:E3. remember (dat (f_norm y)) as m' eqn:E4.
  clear E1 E2 E3 E4. revert m m' F3. induction F1 as [|q d l l' Hq F1 IH]; intros m m' F3; [constructor|].
  destruct F3 as [|r t m m' Hr F3]; [constructor|]. cbn [combine map fst snd]. constructor; [|apply IH; exact F3].
  rewrite (same_safe _ _ Hr). pose proof (same_div q d (fsafe t) Hq) as D.
  destruct (f_stat x); try exact D. destruct D as [D|(u & v & -> & ->)]; [rewrite D; apply same_refl|].
  destruct (HL u) as [u' ->]. destruct (HL v) as [v' ->]. right. eauto.
Qed.

(** ** Points *)

(** A neighbour: the same on both sides, or masked and harmless. *)
Definition near (D : list double) (g g' : double) (n : Z) : Prop :=
  (n = 0 \/ n = 1) /\
  (g = g' \/ (n = 1 /\ forall f, In f D -> is_finite (dtimes f g) = true /\ is_finite (dtimes f g') = true)).

(** A centre. *)
Definition here (D : list double) (f f' : double) (m : Z) : Prop := (m = 0 -> f = f' /\ In f D).

Lemma term_same : forall D f g g' n, near D g g' n -> In f D ->
  same_double (dtimes (dtimes f g) (inverse n)) (dtimes (dtimes f g') (inverse n)).
Proof.
  intros D f g g' n [_ [->|[-> H]]] HI; [apply same_refl|]. destruct (H f HI) as [H1 H2]. rewrite inverse_one.
  destruct (times_zero _ false H1) as [s ->]. destruct (times_zero _ false H2) as [t ->]. right. eauto.
Qed.

Lemma fS2_point_same : forall D P F F' G G' Fm Gm x y p, sim3 (here D) F F' Fm -> sim3 (near D) G G' Gm -> fsim x y ->
  alike fsim (fS2_point P F G Fm Gm x p) (fS2_point P F' G' Fm Gm y p).
Proof.
  intros D P F F' G G' Fm Gm x y p SF SG HE. unfold fS2_point.
  destruct (aget3_sim3 _ _ _ _ _ _ _ p SF) as [(f & f' & m & -> & -> & -> & Hf)|(-> & -> & ->)]; [|exact I]. cbn [bind].
  destruct (m =? 0) eqn:Em; cbn [negb]; [|exact HE]. apply Z.eqb_eq in Em. destruct (Hf Em) as [<- Hin].
  destruct (window_sim3 _ _ _ _ dzero dzero 0 P _ _ _ p (conj (or_introl eq_refl) (or_introl eq_refl)) SG) as [(u & v & w & -> & -> & -> & HW)|(-> & -> & ->)]; [|exact I].
  cbn [bind alike]. destruct HE as (E1 & E2 & E3 & E4 & H1 & H2 & H3). unfold fsim. cbn [fset_data f_stat f_per f_var f_roi f_first f_second f_norm].
  repeat (split; [assumption|]). split; [destruct (deq f dzero); [exact H1|apply fplus_sim; auto; intros; apply term_same with (D := D); auto]|].
  split; [exact H2|]. apply fplus_sim; auto. intros. apply same_refl.
Qed.

Definition here_w (D : list double) (f f' : double) (m : Z) : Prop := f = f' /\ (In f D \/ f = dzero).

Lemma fW2_point_same : forall D P F G G' Gm x y p, (forall f, In f (dat F) -> In f D \/ f = dzero) -> sim3 (near D) G G' Gm -> fsim x y ->
  alike fsim (fW2_point P F G Gm x p) (fW2_point P F G' Gm y p).
Proof.
  intros D P F G G' Gm x y p SF SG HE. unfold fW2_point.
  destruct (window_sim3 _ _ _ _ dzero dzero 0 P _ _ _ p (conj (or_introl eq_refl) (or_introl eq_refl)) SG) as [(u & v & w & -> & -> & -> & HW)|(-> & -> & ->)]; [|exact I].
  cbn [bind]. apply alike_eq. intros f Hf.
  assert (HD : In f D \/ f = dzero).
  { apply SF. destruct p as [[h i] j]. unfold aget3, aget, vget in Hf. destruct (inb _ _ _ _); [|discriminate]. destruct (_ <? 0); [discriminate|].
    destruct (nth_error _ _) eqn:E; inversion Hf; subst. eapply nth_error_In; eauto. }
  cbn [alike]. destruct HE as (E1 & E2 & E3 & E4 & H1 & H2 & H3). unfold fsim. cbn [fset_data f_stat f_per f_var f_roi f_first f_second f_norm].
  repeat (split; [assumption|]). split.
  { destruct (deq f dzero) eqn:EZ; [exact H1|]. destruct HD as [HD| ->]; [|discriminate].
    apply fplus_sim; auto. intros. apply term_same with (D := D); auto. }
  split; [exact H2|]. apply fplus_sim; auto. intros. apply same_refl.
Qed.

(** A neighbour of heightheight. *)
Definition near_hh (L : libm) (var : bool) (D : list double) (g g' : double) (n : Z) : Prop :=
  (n = 0 -> g = g' /\ In g D) /\
  (g = g' \/ (n = 1 /\ forall f, In f D ->
     is_finite (pow2 L (dminus g f)) = true /\ is_finite (pow2 L (dminus g' f)) = true /\
     (var = true -> is_finite (pow4 L (dminus g f)) = true /\ is_finite (pow4 L (dminus g' f)) = true))).

Lemma fhh_point_same : forall L D P F F' Fm x y p, sim3 (near_hh L (f_var x) D) F F' Fm -> fsim x y ->
  alike (fun a b => f_var a = f_var x /\ fsim a b) (fhh_point L P F Fm x p) (fhh_point L P F' Fm y p).
Proof.
  intros L D P F F' Fm x y p SF HE. unfold fhh_point.
  destruct (aget3_sim3 _ _ _ _ _ _ _ p SF) as [(f & f' & m & -> & -> & -> & Hf)|(-> & -> & ->)]; [|exact I]. cbn [bind].
  destruct (m =? 0) eqn:Em; cbn [negb]; [|split; [reflexivity|exact HE]]. apply Z.eqb_eq in Em. destruct (proj1 Hf Em) as [<- Hin].
  (* outside the array: never read, but [window] is total *)
  unfold window. destruct P as [[[p0 q0] [p1 q1]] [p2 q2]]. destruct p as [[h i] j].
  destruct (inb_sim3 _ _ _ _ _ _ _ (h - p0) (i - p1) (j - p2) SF) as [I1 I2].
  destruct (inb_sim3 _ _ _ _ _ _ _ (h + q0) (i + q1) (j + q2) SF) as [I3 I4]. rewrite I1, I2, I3, I4.
  destruct (_ && _); [|exact I]. cbn [bind alike].
  destruct HE as (E1 & E2 & E3 & E4 & H1 & H2 & H3).
  set (rel := fun g g' n => g = g' \/ (n = 1 /\ forall f, In f D ->
     is_finite (pow2 L (dminus g f)) = true /\ is_finite (pow2 L (dminus g' f)) = true /\
     (f_var x = true -> is_finite (pow4 L (dminus g f)) = true /\ is_finite (pow4 L (dminus g' f)) = true))).
  assert (SR : sim3 rel F F' Fm).
  { destruct SF as (A0 & A1 & A2 & A3 & A4 & A5 & SF). repeat split; auto. clear - SF. induction SF; constructor; auto. apply H. }
  assert (N : forall a b c, rel (at3 dzero F a b c) (at3 dzero F' a b c) (at3 0 Fm a b c)) by (intros; apply at3_sim3; auto; left; reflexivity).
  split; [reflexivity|]. unfold fsim. cbn [fset_data f_stat f_per f_var f_roi f_first f_second f_norm].
  repeat (split; [assumption|]). split; [|split].
  - apply fplus_sim; auto. intros a b c. destruct (N (h - p0 + a) (i - p1 + b) (j - p2 + c)) as [->|[-> HF]]; [apply same_refl|].
    destruct (HF f Hin) as (G1 & G2 & _). rewrite inverse_one.
    destruct (times_zero _ false G1) as [s ->]. destruct (times_zero _ false G2) as [t ->]. right. eauto.
  - rewrite <- E3. destruct (f_var x); [|exact H2]. apply fplus_sim; auto. intros a b c.
    destruct (N (h - p0 + a) (i - p1 + b) (j - p2 + c)) as [->|[-> HF]]; [apply same_refl|].
    destruct (HF f Hin) as (_ & _ & G3). destruct (G3 eq_refl) as [G1 G2]. rewrite inverse_one.
    destruct (times_zero _ false G1) as [s ->]. destruct (times_zero _ false G2) as [t ->]. right. eauto.
  - apply fplus_sim; auto. intros. apply same_refl.
Qed.

(** ** Calls *)

Lemma to3_sim3 : forall (R : double -> double -> Z -> Prop) shape (f f' : img double) (m : img Z),
  i_shape f = shape -> i_shape f' = shape -> i_shape m = shape -> Forall3 R (i_vals f) (i_vals f') (i_vals m) ->
  (exists a b c, to3 f = Ok a /\ to3 f' = Ok b /\ to3 m = Ok c /\ sim3 R a b c) \/ (to3 f = UB /\ to3 f' = UB /\ to3 m = UB).
Proof.
  intros R shape f f' m E1 E2 E3 H. unfold to3, atleast_3d. rewrite E1, E2, E3.
  destruct (shape3 shape) as [[[n0 n1] n2]| | |] eqn:ES.
  - left. cbn [bind]. do 3 eexists. repeat split; auto.
  - exfalso. destruct shape as [|? [|? [|? [|]]]]; discriminate.
  - right. auto.
  - exfalso. destruct shape as [|? [|? [|? [|]]]]; discriminate.
Qed.

(** Pixel by pixel. *)
Lemma pixels_Forall3 : forall (R : double -> double -> Z -> Prop) shape (f f' : img double) (m : img Z),
  is_image shape f -> is_image shape f' -> is_image shape m -> 
  (forall p, pixel shape p -> R (dn (i_vals f) p) (dn (i_vals f') p) (zn (i_vals m) p)) ->
  Forall3 R (i_vals f) (i_vals f') (i_vals m).
Proof.
  intros R shape f f' m [_ L1] [_ L2] [_ L3] H.
  assert (G : forall (n : nat), (n < length (i_vals f))%nat -> R (nth n (i_vals f) dzero) (nth n (i_vals f') dzero) (nth n (i_vals m) 0)).
  { intros n Hn. specialize (H (Z.of_nat n)). unfold dn, zn in H. rewrite Nat2Z.id in H. apply H. unfold pixel. unfold lenZ in *. lia. }
  unfold lenZ in *. clear H. assert (E1 : length (i_vals f') = length (i_vals f)) by lia. assert (E2 : length (i_vals m) = length (i_vals f)) by lia. clear L1 L2 L3.
  remember (i_vals f) as l eqn:Q1. remember (i_vals f') as l' eqn:Q2. remember (i_vals m) as k eqn:Q3. clear Q1 Q2 Q3. revert l' k E1 E2 G.
  induction l as [|a l IH]; intros [|b l'] [|c k] E1 E2 G; cbn in E1, E2; try discriminate; constructor.
  - apply (G 0%nat). cbn. lia.
  - apply IH; try lia. intros n Hn. apply (G (S n)). cbn. lia.
Qed.

Lemma same_unmasked_at : forall shape m (f f' : img double), same_unmasked shape m f f' ->
  is_image shape f /\ is_image shape f' /\ is_image shape m /\
  (forall p, pixel shape p -> zn (i_vals m) p = 0 \/ zn (i_vals m) p = 1) /\
  (forall p, pixel shape p -> zn (i_vals m) p = 0 -> dn (i_vals f) p = dn (i_vals f') p).
Proof.
  intros shape m f f' (I1 & I2 & [I3 B] & H). split; [exact I1|]. split; [exact I2|]. split; [exact I3|]. split.
  - intros p Hp. apply B. unfold zn. apply nth_In. destruct I3 as [_ L]. unfold pixel in Hp. unfold lenZ in L. lia.
  - intros p Hp Hm. specialize (H p Hp Hm). unfold dn. destruct I1 as [_ L1], I2 as [_ L2]. unfold pixel in Hp. unfold lenZ in *.
    destruct (nth_error (i_vals f) (Z.to_nat p)) eqn:E1; [|apply nth_error_None in E1; lia].
    rewrite (nth_error_nth _ _ _ E1). symmetry in H. rewrite (nth_error_nth _ _ _ H). reflexivity.
Qed.

(** The values of the unmasked pixels. *)
Definition centres (shape : list Z) (f : img double) (m : img Z) : list double :=
  map (dn (i_vals f)) (filter (fun p => zn (i_vals m) p =? 0) (pixels shape)).

Lemma centres_In : forall shape f m p, pixel shape p -> zn (i_vals m) p = 0 -> In (dn (i_vals f) p) (centres shape f m).
Proof.
  intros shape f m p Hp Hm. unfold centres. apply in_map. apply filter_In. split; [|apply Z.eqb_eq; exact Hm].
  unfold pixels, pixel in *. apply zrange_In. lia.
Qed.

Lemma centres_inv : forall shape f m x, In x (centres shape f m) -> exists p, pixel shape p /\ zn (i_vals m) p = 0 /\ x = dn (i_vals f) p.
Proof.
  intros shape f m x H. unfold centres in H. apply in_map_iff in H. destruct H as (p & <- & H). apply filter_In in H. destruct H as [H1 H2].
  exists p. unfold pixels in H1. apply zrange_In in H1. apply Z.eqb_eq in H2. unfold pixel. repeat split; auto; lia.
Qed.

Ltac skip_asserts := repeat (apply alike_assert; [reflexivity|]).

Lemma fset_stat_sim : forall x y s, fsim x y -> fsim (fset_stat x s) (fset_stat y s).
Proof. intros x y s (E1 & E2 & E3 & E4 & H1 & H2 & H3). unfold fsim. cbn. auto 10. Qed.

Lemma S2_masked : forall asrt x shape f f' g g' m n, f_per x = false ->
  same_unmasked shape m f f' -> same_unmasked shape n g g' -> harmless shape f m g n -> harmless shape f m g' n ->
  alike fsim (fS2 asrt x f g m n) (fS2 asrt x f' g' m n).
Proof.
  intros asrt x shape f f' g g' m n Hper Hf Hg H1 H2.
  destruct (same_unmasked_at _ _ _ _ Hf) as (If & If' & Im & Bm & Ef). destruct (same_unmasked_at _ _ _ _ Hg) as (Ig & Ig' & In' & Bn & Eg).
  unfold fS2. pose proof If as [S1 _]. pose proof If' as [S2 _]. pose proof Ig as [S3 _]. pose proof Ig' as [S4 _]. rewrite S1, S2, S3, S4.
  skip_asserts. apply alike_eq. intros [] _.
  set (D := centres shape f m).
  assert (T1 : Forall3 (here D) (i_vals f) (i_vals f') (i_vals m)).
  { apply pixels_Forall3 with (shape := shape); auto. intros p Hp Hm. split; [apply Ef; auto|apply centres_In; auto]. }
  assert (T2 : Forall3 (near D) (i_vals g) (i_vals g') (i_vals n)).
  { apply pixels_Forall3 with (shape := shape); auto. intros q Hq. split; [apply Bn; auto|].
    destruct (Bn q Hq) as [B|B]; [left; apply Eg; auto|right]. split; [exact B|]. intros y Hy.
    apply centres_inv in Hy. destruct Hy as (p & Hp & Hm & ->). split; [apply H1|apply H2]; auto. }
  pose proof Im as [S5 _]. pose proof In' as [S6 _].
  destruct (to3_sim3 _ shape f f' m S1 S2 S5 T1) as [(a & b & c & -> & -> & -> & SF)|(-> & -> & ->)]; [|exact I].
  destruct (to3_sim3 _ shape g g' n S3 S4 S6 T2) as [(a' & b' & c' & -> & -> & -> & SG)|(-> & -> & ->)]; [|exact I].
  cbn [bind]. rewrite Hper. unfold pad_mode, pad_mask. cbn [bind].
  assert (PF : sim3 (here D) (pad_constant dzero a (f_pad x)) (pad_constant dzero b (f_pad x)) (pad_constant 1 c (f_pad x))).
  { apply pad_constant_sim3; auto. intros H. discriminate. }
  assert (PG : sim3 (near D) (pad_constant dzero a' (f_pad x)) (pad_constant dzero b' (f_pad x)) (pad_constant 1 c' (f_pad x))).
  { apply pad_constant_sim3; auto. split; auto. }
  rewrite <- (sim3_positions _ _ _ _ _ _ _ (f_pad x) PF). apply foldM_alike; [|apply fset_stat_sim, fsim_refl].
  intros s t p Hst. apply fS2_point_same with (D := D); auto.
Qed.

Lemma W2_masked : forall asrt x shape f g g' n, f_per x = false -> is_image shape f ->
  same_unmasked shape n g g' -> harmless shape f (zeros shape) g n -> harmless shape f (zeros shape) g' n ->
  alike fsim (fW2 asrt x f g n) (fW2 asrt x f g' n).
Proof.
  intros asrt x shape f g g' n Hper If Hg H1 H2. destruct (same_unmasked_at _ _ _ _ Hg) as (Ig & Ig' & In' & Bn & Eg).
  unfold fW2. pose proof If as [S1 L1]. pose proof Ig as [S3 _]. pose proof Ig' as [S4 _]. pose proof In' as [S6 _]. rewrite S1, S3, S4.
  skip_asserts. apply alike_eq. intros [] _. apply alike_eq. intros a Ha.
  set (D := i_vals f).
  assert (ZZ : forall p, pixel shape p -> zn (i_vals (zeros shape)) p = 0).
  { intros p Hp. unfold zn, zeros. cbn [i_vals]. apply nth_repeat. }
  assert (T2 : Forall3 (near D) (i_vals g) (i_vals g') (i_vals n)).
  { apply pixels_Forall3 with (shape := shape); auto. intros q Hq. split; [apply Bn; auto|].
    destruct (Bn q Hq) as [B|B]; [left; apply Eg; auto|right]. split; [exact B|]. intros y Hy.
    apply In_nth with (d := dzero) in Hy. destruct Hy as (k & Hk & <-).
    assert (HP : 0 <= Z.of_nat k < zprod shape) by (unfold lenZ in L1; change D with (i_vals f) in Hk; lia).
    assert (EK : nth k D dzero = dn (i_vals f) (Z.of_nat k)) by (unfold dn; rewrite Nat2Z.id; reflexivity). rewrite EK.
    split; [apply H1|apply H2]; auto. }
  destruct (to3_sim3 _ shape g g' n S3 S4 S6 T2) as [(a' & b' & c' & -> & -> & -> & SG)|(-> & -> & ->)]; [|exact I].
  cbn [bind]. rewrite Hper. unfold pad_mode, pad_mask. cbn [bind].
  assert (PG : sim3 (near D) (pad_constant dzero a' (f_pad x)) (pad_constant dzero b' (f_pad x)) (pad_constant 1 c' (f_pad x))).
  { apply pad_constant_sim3; auto. split; auto. }
  assert (PF : forall y, In y (dat (pad_constant dzero a (f_pad x))) -> In y D \/ y = dzero).
  { intros y Hy. destruct (f_pad x) as [[[p0 q0] [p1 q1]] [p2 q2]]. unfold pad_constant, tab in Hy. cbn [dat] in Hy. apply in_map_iff in Hy. destruct Hy as (k & <- & _).
    destruct (inb _ _ _ _); [|right; reflexivity]. unfold at3.
    assert (DA : dat a = D). { unfold to3, atleast_3d in Ha. destruct (shape3 (i_shape f)) as [[[? ?] ?]| | |]; inversion Ha; reflexivity. }
    rewrite DA. destruct (nth_in_or_default (Z.to_nat (flat3 (d1 a) (d2 a) (k / ((p1 + d1 a + q1) * (p2 + d2 a + q2)) - p0) (k / (p2 + d2 a + q2) mod (p1 + d1 a + q1) - p1) (k mod (p2 + d2 a + q2) - p2))) D dzero); auto. }
  apply foldM_alike; [|apply fset_stat_sim, fsim_refl].
  intros s t p Hst. apply fW2_point_same with (D := D); auto.
Qed.

Lemma hh_masked : forall L asrt x shape f f' m, f_per x = false ->
  same_unmasked shape m f f' -> harmless_differences L (f_var x) shape f f m -> harmless_differences L (f_var x) shape f f' m ->
  alike fsim (fheightheight L asrt x f m) (fheightheight L asrt x f' m).
Proof.
  intros L asrt x shape f f' m Hper Hf H1 H2. destruct (same_unmasked_at _ _ _ _ Hf) as (If & If' & Im & Bm & Ef).
  unfold fheightheight. pose proof If as [S1 _]. pose proof If' as [S2 _]. rewrite S1, S2. skip_asserts. apply alike_eq. intros [] _.
  set (D := centres shape f m).
  assert (T1 : Forall3 (near_hh L (f_var x) D) (i_vals f) (i_vals f') (i_vals m)).
  { apply pixels_Forall3 with (shape := shape); auto. intros q Hq. split.
    - intros Hm. split; [apply Ef; auto|apply centres_In; auto].
    - destruct (Bm q Hq) as [B|B]; [left; apply Ef; auto|right]. split; [exact B|]. intros y Hy.
      apply centres_inv in Hy. destruct Hy as (p & Hp & Hm & ->).
      destruct (H1 p q Hp Hq Hm B) as [A1 A2]. destruct (H2 p q Hp Hq Hm B) as [A3 A4]. repeat split; auto. }
  pose proof Im as [S5 _].
  destruct (to3_sim3 _ shape f f' m S1 S2 S5 T1) as [(a & b & c & -> & -> & -> & SF)|(-> & -> & ->)]; [|exact I].
  cbn [bind]. rewrite Hper. unfold pad_mode, pad_mask. cbn [bind].
  assert (PF : sim3 (near_hh L (f_var x) D) (pad_constant dzero a (f_pad x)) (pad_constant dzero b (f_pad x)) (pad_constant 1 c (f_pad x))).
  { apply pad_constant_sim3; auto. split; [intros H; discriminate|left; reflexivity]. }
  rewrite <- (sim3_positions _ _ _ _ _ _ _ (f_pad x) PF).
  eapply alike_weaken; [|apply foldM_alike with (R := fun s t => f_var s = f_var x /\ fsim s t)].
  - intros s t [_ H]. exact H.
  - intros s t p [Hv Hst]. rewrite <- Hv in PF. pose proof (fhh_point_same L D (f_pad x) _ _ _ s t p PF Hst) as HP.
    eapply alike_weaken; [|exact HP]. cbv beta. intros u v [A1 A2]. split; [congruence|exact A2].
  - split; [reflexivity|]. apply fset_stat_sim, fsim_refl.
Qed.

(** [mean] and [W2c] look at the mask first. *)
Lemma mean_masked_any : forall L asrt x shape f f' m, same_unmasked shape m f f' -> fmean_masked L asrt x f m = fmean_masked L asrt x f' m.
Proof.
  intros L asrt x shape f f' m Hf. destruct (same_unmasked_at _ _ _ _ Hf) as (If & If' & Im & Bm & Ef).
  unfold fmean_masked. pose proof If as [S1 _]. pose proof If' as [S2 _]. rewrite S1, S2. cbv zeta.
  assert (T : Forall3 (fun a b c => c = 0 -> a = b) (i_vals f) (i_vals f') (i_vals m)) by (apply pixels_Forall3 with (shape := shape); auto).
  assert (E : forall k, map (fun z : double * Z => if snd z =? 0 then k (fst z) else dzero) (combine (i_vals f) (i_vals m)) =
                        map (fun z : double * Z => if snd z =? 0 then k (fst z) else dzero) (combine (i_vals f') (i_vals m))).
  { intros k. clear Bm Ef. induction T as [|a b c l l' n Habc T IH]; cbn [combine map fst snd]; [reflexivity|]. rewrite IH.
    destruct (c =? 0) eqn:EC; [apply Z.eqb_eq in EC; rewrite (Habc EC); reflexivity|reflexivity]. }
  rewrite (E (fun y => y)), (E (pow2 L)). reflexivity.
Qed.

Lemma W2c_walk_any : forall P C Fm F F' label p all rest q fn, sim3 (fun a b c => c = 0 -> a = b) F F' Fm ->
  fW2c_walk P C Fm F label p all rest q fn = fW2c_walk P C Fm F' label p all rest q fn.
Proof.
  intros P C Fm F F' label [[h i] j] all rest. destruct P as [[[p0 q0] [p1 q1]] [p2 q2]].
  induction rest as [|r rest IH]; intros q fn SF; cbn [fW2c_walk]; [reflexivity|].
  destruct r as [|dh [|di [|dj [|]]]]; try reflexivity. destruct (aget C _ _ _) as [c| | |]; cbn [bind]; try reflexivity. cbv zeta.
  set (q' := if negb (c =? label) && (q <? 0) then 0 else q).
  assert (E : (if 0 <=? q' then
      m <- aget Fm (h + dh) (i + di) (j + dj) ;;
      if m =? 0 then to <- vget all q' ;;
        match to with
        | [th; ti; tj] => n <- fincr (snd fn) (p0 + th) (p1 + ti) (p1 + tj) done ;; v <- aget F (h + dh) (i + di) (j + dj) ;;
                          f <- fincr (fst fn) (p0 + th) (p1 + ti) (p1 + tj) v ;; Ok (f, n)
        | _ => UB end
      else Ok fn else Ok fn) =
     (if 0 <=? q' then
      m <- aget Fm (h + dh) (i + di) (j + dj) ;;
      if m =? 0 then to <- vget all q' ;;
        match to with
        | [th; ti; tj] => n <- fincr (snd fn) (p0 + th) (p1 + ti) (p1 + tj) done ;; v <- aget F' (h + dh) (i + di) (j + dj) ;;
                          f <- fincr (fst fn) (p0 + th) (p1 + ti) (p1 + tj) v ;; Ok (f, n)
        | _ => UB end
      else Ok fn else Ok fn)).
  { destruct (0 <=? q'); [|reflexivity].
    pose proof (aget3_sim3 _ _ _ _ _ _ _ (h + dh, i + di, j + dj) SF) as HA. cbn [aget3] in HA.
    destruct HA as [(u & v & w & -> & -> & -> & HA)|(-> & -> & ->)]; [|reflexivity]. cbn [bind].
    destruct (w =? 0) eqn:EW; [|reflexivity]. apply Z.eqb_eq in EW. rewrite (HA EW). reflexivity. }
  rewrite E. match goal with |- bind ?r _ = _ => destruct r; cbn [bind]; auto end.
Qed.

Lemma foldM_ext : forall A S (F G : S -> A -> res S) l s, (forall s x, F s x = G s x) -> foldM F l s = foldM G l s.
Proof. intros A S F G l s H. revert s. induction l as [|x l IH]; intros s; cbn [foldM]; [reflexivity|]. rewrite H. destruct (G s x); cbn [bind]; auto. Qed.

Lemma W2c_masked_any : forall asrt x c ce shape f f' m mode, same_unmasked shape m f f' -> fW2c asrt x c ce f m mode = fW2c asrt x c ce f' m mode.
Proof.
  intros asrt x c ce shape f f' m mode Hf. destruct (same_unmasked_at _ _ _ _ Hf) as (If & If' & Im & Bm & Ef).
  assert (T : Forall3 (fun a b c => c = 0 -> a = b) (i_vals f) (i_vals f') (i_vals m)) by (apply pixels_Forall3 with (shape := shape); auto).
  unfold fW2c. pose proof If as [S1 _]. pose proof If' as [S2 _]. pose proof Im as [S5 _]. rewrite S1, S2.
  repeat match goal with |- bind (assertb ?a ?b) _ = _ => destruct (assertb a b); cbn [bind]; try reflexivity end.
  destruct (froi_ok x); cbn [bind]; try reflexivity.
  destruct (to3_sim3 _ shape f f' m S1 S2 S5 T) as [(u1 & v1 & w1 & -> & -> & -> & SF)|(-> & -> & ->)]; [|reflexivity]. cbn [bind].
  destruct (to3 c) as [c3| | |]; cbn [bind]; try reflexivity. destruct (to3 ce) as [ce3| | |]; cbn [bind]; try reflexivity.
  destruct (pad_mode_sim3 _ _ _ (fun a b c => c = 0 -> a = b) (f_per x) dzero dzero 0 u1 v1 w1 (f_pad x) (fun _ => eq_refl) SF) as [(F & F' & Fm & -> & -> & -> & PF)|(-> & -> & ->)]; [|reflexivity].
  cbn [bind]. destruct (pad_mode (f_per x) 0 c3 (f_pad x)); cbn [bind]; try reflexivity. destruct (pad_mode (f_per x) 0 ce3 (f_pad x)); cbn [bind]; try reflexivity.
  apply foldM_ext. intros s st. unfold fW2c_stamp. destruct (path _ _ _ _); cbn [bind]; try reflexivity.
  rewrite (sim3_positions _ _ _ _ _ _ _ (f_pad x) PF).
  erewrite foldM_ext; [reflexivity|]. intros fn p. unfold fW2c_point. destruct (aget3 _ p); cbn [bind]; try reflexivity. destruct (_ =? 0); [reflexivity|].
  destruct (aget3 _ p); cbn [bind]; try reflexivity. destruct (negb _); [reflexivity|]. apply W2c_walk_any. exact PF.
Qed.

(** ** A NaN, or a product too large for a double, gets through a mask *)

Definition dnan : double := B754_nan.
Definition row (l : list double) : img double := mkimg [Z.of_nat (length l)] l.
Definition zrow (l : list Z) : img Z := mkimg [Z.of_nat (length l)] l.

Lemma row_same : forall l l' m, length l = length l' -> length m = length l -> (forall x, In x m -> x = 0 \/ x = 1) ->
  (forall k, (k < length l)%nat -> nth k m 0 = 0 -> nth_error l k = nth_error l' k) ->
  same_unmasked [Z.of_nat (length l)] (zrow m) (row l) (row l').
Proof.
  intros l l' m E1 E2 B H. unfold same_unmasked, is_mask, is_image, row, zrow, lenZ. cbn [i_shape i_vals zprod fold_right].
  rewrite <- E1, E2, Z.mul_1_r. repeat split; auto. intros p Hp Hm. unfold pixel in Hp. cbn in Hp. apply H; [lia|exact Hm].
Qed.

Lemma S2_nan : forall L asrt, 
  let outcome g := x <- ffresh L asrt [1] false false (FCallS2 (row [done; done]) (row g) (Some (zrow [0; 0], zrow [1; 0]))) ;; Ok (some_nan (fresult L x)) in
  outcome [dzero; done] = Ok false /\ outcome [dnan; done] = Ok true.
Proof. intros L asrt. destruct asrt; split; vm_compute; reflexivity. Qed.

Lemma S2_overflow : forall L asrt, 
  let outcome g := x <- ffresh L asrt [1] false false (FCallS2 (row [dz (2 ^ 600); done]) (row g) (Some (zrow [0; 0], zrow [1; 0]))) ;; Ok (some_nan (fresult L x)) in
  outcome [dzero; done] = Ok false /\ outcome [dz (2 ^ 600); done] = Ok true.
Proof. intros L asrt. destruct asrt; split; vm_compute; reflexivity. Qed.

Lemma W2_nan : forall L asrt, 
  let outcome g := x <- ffresh L asrt [1] false false (FCallW2 (row [done; done]) (row g) (Some (zrow [1; 0]))) ;; Ok (some_nan (fresult L x)) in
  outcome [dzero; done] = Ok false /\ outcome [dnan; done] = Ok true.
Proof. intros L asrt. destruct asrt; split; vm_compute; reflexivity. Qed.

Lemma hh_nan : forall asrt,
  let outcome f := x <- ffresh plain asrt [3] false false (FCallHH (row f) (Some (zrow [1; 0]))) ;; Ok (some_nan (fdata_first x)) in
  outcome [dzero; done] = Ok false /\ outcome [dnan; done] = Ok true.
Proof. intros asrt. destruct asrt; split; vm_compute; reflexivity. Qed.

Lemma bind_Ok : forall A B (r : res A) (k : A -> B) b, (x <- r ;; Ok (k x)) = Ok b -> exists x, r = Ok x /\ k x = b.
Proof. intros A B r k b H. destruct r as [x| | |]; cbn in H; try discriminate. exists x. split; [reflexivity|congruence]. Qed.

Lemma rows_mask : forall a b c : double, same_unmasked [2] (zrow [1; 0]) (row [a; c]) (row [b; c]).
Proof.
  intros a b c. apply (row_same [a; c] [b; c] [1; 0]); try reflexivity; [intros x [<-|[<-|[]]]; auto|].
  intros k Hk Hm. destruct k as [|[|k]]; [discriminate|reflexivity|cbn in Hk; lia].
Qed.

Lemma S2_mask_refuted : forall L asrt, exists shape f g g' m n x y,
  is_image shape f /\ is_mask shape m /\ same_unmasked shape n g g' /\
  ffresh L asrt [1] false false (FCallS2 f g (Some (m, n))) = Ok x /\
  ffresh L asrt [1] false false (FCallS2 f g' (Some (m, n))) = Ok y /\
  some_nan (fresult L x) = false /\ some_nan (fresult L y) = true.
Proof.
  intros L asrt. destruct (S2_nan L asrt) as [H1 H2]. apply bind_Ok in H1. apply bind_Ok in H2. destruct H1 as (x & X1 & X2). destruct H2 as (y & Y1 & Y2).
  exists [2], (row [done; done]), (row [dzero; done]), (row [dnan; done]), (zrow [0; 0]), (zrow [1; 0]), x, y.
  split; [split; reflexivity|]. split; [split; [split; reflexivity|cbn; intros; lia]|]. split; [apply rows_mask|]. auto.
Qed.

Lemma S2_mask_finite_refuted : forall L asrt, exists shape f g g' m n x y,
  is_image shape f /\ is_mask shape m /\ same_unmasked shape n g g' /\ Forall (fun v => is_finite v = true) (i_vals f ++ i_vals g ++ i_vals g') /\
  ffresh L asrt [1] false false (FCallS2 f g (Some (m, n))) = Ok x /\
  ffresh L asrt [1] false false (FCallS2 f g' (Some (m, n))) = Ok y /\
  some_nan (fresult L x) = false /\ some_nan (fresult L y) = true.
Proof.
  intros L asrt. destruct (S2_overflow L asrt) as [H1 H2]. apply bind_Ok in H1. apply bind_Ok in H2. destruct H1 as (x & X1 & X2). destruct H2 as (y & Y1 & Y2).
  exists [2], (row [dz (2 ^ 600); done]), (row [dzero; done]), (row [dz (2 ^ 600); done]), (zrow [0; 0]), (zrow [1; 0]), x, y.
  split; [split; reflexivity|]. split; [split; [split; reflexivity|cbn; intros; lia]|]. split; [apply rows_mask|].
  split; [apply Forall_forall; intros v Hv; cbn [i_vals row app] in Hv; cbn [In] in Hv; intuition (subst; vm_compute; reflexivity)|]. auto.
Qed.

Lemma W2_mask_refuted : forall L asrt, exists shape w f f' m x y,
  is_image shape w /\ same_unmasked shape m f f' /\
  ffresh L asrt [1] false false (FCallW2 w f (Some m)) = Ok x /\
  ffresh L asrt [1] false false (FCallW2 w f' (Some m)) = Ok y /\
  some_nan (fresult L x) = false /\ some_nan (fresult L y) = true.
Proof.
  intros L asrt. destruct (W2_nan L asrt) as [H1 H2]. apply bind_Ok in H1. apply bind_Ok in H2. destruct H1 as (x & X1 & X2). destruct H2 as (y & Y1 & Y2).
  exists [2], (row [done; done]), (row [dzero; done]), (row [dnan; done]), (zrow [1; 0]), x, y.
  split; [split; reflexivity|]. split; [apply rows_mask|]. auto.
Qed.

Lemma hh_mask_refuted : forall asrt, exists L shape f f' m x y,
  library L /\ same_unmasked shape m f f' /\
  ffresh L asrt [3] false false (FCallHH f (Some m)) = Ok x /\
  ffresh L asrt [3] false false (FCallHH f' (Some m)) = Ok y /\
  some_nan (fdata_first x) = false /\ some_nan (fdata_first y) = true.
Proof.
  intros asrt. destruct (hh_nan asrt) as [H1 H2]. apply bind_Ok in H1. apply bind_Ok in H2. destruct H1 as (x & X1 & X2). destruct H2 as (y & Y1 & Y2).
  exists plain, [2], (row [dzero; done]), (row [dnan; done]), (zrow [1; 0]), x, y.
  split; [apply plain_library|]. split; [apply rows_mask|]. auto.
Qed.

(** The guarded statements, of the public calls *)
Lemma alike_fsim : forall L x y, root_of_zero L -> alike fsim x y -> alike (same_fdata L) x y.
Proof. intros L x y HL H. eapply alike_weaken; [|exact H]. intros a b. apply fsim_same. exact HL. Qed.

Lemma S2_mask_guarded : forall L asrt x shape f f' g g' m n, root_of_zero L -> f_per x = false ->
  same_unmasked shape m f f' -> same_unmasked shape n g g' -> harmless shape f m g n -> harmless shape f m g' n ->
  alike (same_fdata L) (fadd L asrt x (FCallS2 f g (Some (m, n)))) (fadd L asrt x (FCallS2 f' g' (Some (m, n)))).
Proof. intros. apply alike_fsim; auto. cbn [fadd mask2 fst snd]. eapply S2_masked; eauto. Qed.

Lemma W2_mask_guarded : forall L asrt x shape w f f' m, root_of_zero L -> f_per x = false -> is_image shape w ->
  same_unmasked shape m f f' -> harmless shape w (zeros shape) f m -> harmless shape w (zeros shape) f' m ->
  alike (same_fdata L) (fadd L asrt x (FCallW2 w f (Some m))) (fadd L asrt x (FCallW2 w f' (Some m))).
Proof. intros. apply alike_fsim; auto. cbn [fadd mask1]. eapply W2_masked; eauto. Qed.

Lemma hh_mask_guarded : forall L asrt x shape f f' m, root_of_zero L -> f_per x = false ->
  same_unmasked shape m f f' -> harmless_differences L (f_var x) shape f f m -> harmless_differences L (f_var x) shape f f' m ->
  alike (same_fdata L) (fadd L asrt x (FCallHH f (Some m))) (fadd L asrt x (FCallHH f' (Some m))).
Proof. intros. apply alike_fsim; auto. cbn [fadd mask1]. eapply hh_masked; eauto. Qed.

Lemma mean_mask_any : forall L asrt x shape f f' m, same_unmasked shape m f f' ->
  fadd L asrt x (FMeanMasked f m) = fadd L asrt x (FMeanMasked f' m).
Proof. intros. cbn [fadd]. eapply mean_masked_any; eauto. Qed.

Lemma W2c_mask_any : forall L asrt x clusters centers shape f f' m mode, same_unmasked shape m f f' ->
  fadd L asrt x (FCallW2c clusters centers f (Some m) mode) = fadd L asrt x (FCallW2c clusters centers f' (Some m) mode).
Proof. intros. cbn [fadd mask1]. eapply W2c_masked_any; eauto. Qed.
