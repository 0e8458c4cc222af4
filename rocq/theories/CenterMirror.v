(** * CenterMirror: centers of reflected and scaled positions and images *)

From Coq Require Import ZArith List Bool Reals Lra Lia Permutation.
From Verif Require Import Base BaseLemmas Cluster SpecCluster SpecSymmetry ClusterGeom KernelProofs DerivedCluster Center SpecCenter SpecCenterMoved SpecCenterMirror CenterProofs CenterTop CenterLabels CenterRefute CenterMoved.
Import ListNotations.
Open Scope R_scope.

Lemma fit_related : forall shape (Rel : mass -> mass -> Prop) (l l' : list mass), (forall m m', Rel m m' -> length (fst m') = length (fst m)) ->
  fit shape (map fst l) -> Forall2 Rel l l' -> fit shape (map fst l').
Proof.
  intros shape Rel l l' H F W. induction W as [|m m' l l' E W IH]; cbn [map]; intros x Hx; [destruct Hx|]. destruct Hx as [<-|Hx].
  - rewrite (H _ _ E). apply F. now left.
  - apply IH; [intros y Hy; apply F; now right|assumption].
Qed.

(** ** Reflections *)
Lemma coord_reflected : forall shape which t k (l l' : list mass), fit shape (map fst l) -> (k < length shape)%nat -> Forall2 (reflected_mass which t) l l' ->
  Forall2 (fun m m' : mass => snd m' = snd m /\ coordinate k (fst m') = reflect which t k (coordinate k (fst m))) l l'.
Proof.
  intros shape which t k l l' F K W. induction W as [|m m' l l' [E [L H]] W IH]; constructor.
  - split; [exact E|]. apply H. rewrite F by (left; reflexivity). assumption.
  - apply IH. intros x Hx. apply F. right. exact Hx.
Qed.

Lemma fit_reflected : forall shape which t (l l' : list mass), fit shape (map fst l) -> Forall2 (reflected_mass which t) l l' -> fit shape (map fst l').
Proof. intros shape which t l l' F W. eapply fit_related; [|exact F|exact W]. intros m m' (_ & H & _). exact H. Qed.

Lemma mass_reflect_mean : forall shape (l l' : list mass) which t k, fit shape (map fst l) -> total snd l <> 0 -> Forall2 (reflected_mass which t) l l' ->
  (k < length shape)%nat ->
  exists r r' c c', center_of_mass shape (map fst l) (map snd l) false = Ok r /\ center_of_mass shape (map fst l') (map snd l') false = Ok r' /\
    at_axis r k c /\ at_axis r' k c' /\ c' = reflect which t k c.
Proof.
  intros shape l l' which t k F N W K. assert (F' := fit_reflected _ _ _ _ _ F W).
  assert (T : total snd l' = total snd l) by (eapply total_same; [|exact W]; intros m m' [H _]; exact H).
  destruct (mass_mean shape l k F N K) as (r & c & E & _ & A & M & _).
  destruct (mass_mean shape l' k F') as (r' & c' & E' & _ & A' & M' & _); [congruence|assumption|].
  exists r, r', c, c'. repeat (split; [assumption|]).
  assert (D := coord_reflected shape which t k l l' F K W). unfold reflect in *.
  assert (S : total (fun m => snd m * coordinate k (fst m)) l'
    = if which k then t k * total snd l - total (fun m => snd m * coordinate k (fst m)) l else total (fun m => snd m * coordinate k (fst m)) l).
  { clear -D. induction D as [|m m' l l' [E H] _ IH]; cbn [total]; [destruct (which k); lra|]. rewrite IH, H, E. destruct (which k); lra. }
  rewrite T in M'. apply (Rmult_eq_reg_r (total snd l)); [|assumption]. rewrite M', S. destruct (which k); rewrite <- M; lra.
Qed.

Lemma reflected_sums : forall len k which t (l l' : list mass), len <> 0 ->
  Forall2 (fun m m' : mass => snd m' = snd m /\ coordinate k (fst m') = reflect which t k (coordinate k (fst m))) l l' ->
  (which k = true ->
    sum_cos len k l' = cos (2 * PI * t k / len) * sum_cos len k l + sin (2 * PI * t k / len) * sum_sin len k l /\
    sum_sin len k l' = sin (2 * PI * t k / len) * sum_cos len k l - cos (2 * PI * t k / len) * sum_sin len k l) /\
  (which k = false -> sum_cos len k l' = sum_cos len k l /\ sum_sin len k l' = sum_sin len k l).
Proof.
  intros len k which t l l' Z D. unfold sum_cos, sum_sin, reflect in *. split; intros W; rewrite W in D.
  - induction D as [|m m' l l' [E H] _ [IHc IHs]]; cbn [total]; [lra|]. rewrite IHc, IHs, E, H.
    replace (2 * PI * (t k - coordinate k (fst m)) / len) with (2 * PI * t k / len - 2 * PI * coordinate k (fst m) / len) by (field; exact Z).
    rewrite cos_minus, sin_minus. split; ring.
  - induction D as [|m m' l l' [E H] _ [IHc IHs]]; cbn [total]; [lra|]. rewrite IHc, IHs, E, H. split; reflexivity.
Qed.

Lemma balanced_reflect : forall len k which t (l l' : list mass), len <> 0 ->
  Forall2 (fun m m' : mass => snd m' = snd m /\ coordinate k (fst m') = reflect which t k (coordinate k (fst m))) l l' ->
  balanced len k l' -> balanced len k l.
Proof.
  intros len k which t l l' Z D [C S]. destruct (reflected_sums len k which t l l' Z D) as [HT HF].
  destruct (which k); [destruct (HT eq_refl) as [H1 H2]|destruct (HF eq_refl) as [H1 H2]; split; congruence].
  rewrite H1 in C. rewrite H2 in S. clear HT HF H1 H2. set (a := 2 * PI * t k / len) in *. pose proof (sin2_cos2 a) as P. unfold Rsqr in P.
  set (X := sum_cos len k l) in *. set (Y := sum_sin len k l) in *. split.
  - change (X = 0). assert (H : (sin a * sin a + cos a * cos a) * X = cos a * (cos a * X + sin a * Y) + sin a * (sin a * X - cos a * Y)) by ring.
    rewrite P, C, S in H. lra.
  - change (Y = 0). assert (H : (sin a * sin a + cos a * cos a) * Y = sin a * (cos a * X + sin a * Y) - cos a * (sin a * X - cos a * Y)) by ring.
    rewrite P, C, S in H. lra.
Qed.

Lemma circular_mean_reflect : forall len k which t (l l' : list mass) c, len <> 0 ->
  Forall2 (fun m m' : mass => snd m' = snd m /\ coordinate k (fst m') = reflect which t k (coordinate k (fst m))) l l' ->
  circular_mean len k l c -> circular_mean len k l' (reflect which t k c).
Proof.
  intros len k which t l l' c Z D (rho & Hr & C & S). exists rho. split; [exact Hr|].
  destruct (reflected_sums len k which t l l' Z D) as [HT HF]. unfold reflect.
  destruct (which k); [destruct (HT eq_refl) as [-> ->]|destruct (HF eq_refl) as [-> ->]; auto].
  rewrite C, S. replace (2 * PI * (t k - c) / len) with (2 * PI * t k / len - 2 * PI * c / len) by (field; exact Z).
  rewrite cos_minus, sin_minus. split; ring.
Qed.

Lemma mass_reflect : forall shape (l l' : list mass) which t k, fit shape (map fst l) -> 0 < total snd l -> Forall2 (reflected_mass which t) l l' ->
  (k < length shape)%nat -> 0 < side shape k -> ~ balanced (side shape k) k l ->
  exists r r' c c', center_of_mass shape (map fst l) (map snd l) true = Ok r /\ center_of_mass shape (map fst l') (map snd l') true = Ok r' /\
    at_axis r k c /\ at_axis r' k c' /\ same_point (side shape k) (reflect which t k c) c'.
Proof.
  intros shape l l' which t k F N W K S NB. assert (F' := fit_reflected _ _ _ _ _ F W).
  assert (T : total snd l' = total snd l) by (eapply total_same; [|exact W]; intros m m' [H _]; exact H).
  destruct (mass_circular shape l k F N K S) as (r & c & E & _ & A & _ & C).
  destruct (mass_circular shape l' k F') as (r' & c' & E' & _ & A' & _ & C'); [congruence|assumption|assumption|].
  exists r, r', c, c'. repeat (split; [assumption|]).
  assert (D := coord_reflected shape which t k l l' F K W).
  apply (circular_mean_unique (side shape k) k l'); auto.
  - intro B. apply NB. eapply balanced_reflect; [|exact D|exact B]. lra.
  - eapply circular_mean_reflect; [|exact D|exact C]. lra.
Qed.

(** ** One axis at a time *)
Lemma axis_mass_same : forall per len k j (l l' : list mass), Forall2 (same_along k j) l l' -> axis_mass per len j l' = axis_mass per len k l.
Proof.
  intros per len k j l l' W.
  assert (T : total snd l' = total snd l) by (eapply total_same; [|exact W]; intros m m' [H _]; exact H).
  assert (G : forall f : R -> R, wavg (fun p => f (coordinate j p)) l' = wavg (fun p => f (coordinate k p)) l).
  { intros f. unfold wavg. f_equal; [|exact T]. clear T. induction W as [|m m' l l' [E H] _ IH]; cbn [total]; [reflexivity|]. rewrite IH, E, H. reflexivity. }
  unfold axis_mass. rewrite (G (fun x => sin (2 * PI * x / len))), (G (fun x => cos (2 * PI * x / len))). unfold minus_of. rewrite T.
  destruct per; cbn [negb]; [reflexivity|]. exact (G (fun x => x)).
Qed.

Lemma mass_axis : forall shape shape' (l l' : list mass) per k j r r', fit shape (map fst l) -> fit shape' (map fst l') ->
  (k < length shape)%nat -> (j < length shape')%nat -> side shape' j = side shape k -> Forall2 (same_along k j) l l' ->
  center_of_mass shape (map fst l) (map snd l) per = Ok r -> center_of_mass shape' (map fst l') (map snd l') per = Ok r' ->
  exists x, nth_error r k = Some x /\ nth_error r' j = Some x.
Proof.
  intros shape shape' l l' per k j r r' F F' K J S W E E'. destruct l as [|m l].
  - inversion W; subst. cbn [map] in E, E'. rewrite mass_none in E, E'. injection E as <-. injection E' as <-. exists (Num 0).
    split; rewrite nth_error_map; [destruct (nth_error shape k) eqn:H|destruct (nth_error shape' j) eqn:H]; auto; apply nth_error_None in H; lia.
  - destruct l' as [|m' l']; [inversion W|].
    destruct (mass_runs shape (m :: l) per F ltac:(discriminate)) as (x & X & _ & A).
    destruct (mass_runs shape' (m' :: l') per F' ltac:(discriminate)) as (y & Y & _ & B).
    rewrite E in X. injection X as <-. rewrite E' in Y. injection Y as <-. exists (axis_mass per (side shape k) k (m :: l)).
    split; [apply A; assumption|]. rewrite B, S by assumption. f_equal. apply axis_mass_same. exact W.
Qed.

Lemma unit_same_along : forall k j (ps qs : list (list R)), Forall2 (fun p q => coordinate j q = coordinate k p) ps qs -> Forall2 (same_along k j) (unit_mass ps) (unit_mass qs).
Proof. intros k j ps qs H. induction H; cbn; constructor; auto. split; auto. Qed.

Lemma center_as_mass : forall shape ps per, fit shape ps -> center shape ps per = center_of_mass shape (map fst (unit_mass ps)) (map snd (unit_mass ps)) per.
Proof.
  intros shape ps per F. assert (U : map fst (unit_mass ps) = ps) by (unfold unit_mass; rewrite map_map; apply map_id).
  destruct ps as [|p ps]; [now rewrite U, mass_none, center_none|].
  symmetry. apply mass_center_ext; auto; try discriminate. now rewrite U.
Qed.

(** ** Scale *)
Lemma wavg_same : forall (f g : list R -> R) (l l' : list mass), Forall2 (fun m m' : mass => snd m' = snd m /\ g (fst m') = f (fst m)) l l' -> wavg g l' = wavg f l.
Proof.
  intros f g l l' W. unfold wavg. f_equal.
  - induction W as [|m m' l l' [E H] _ IH]; cbn [total]; [reflexivity|]. rewrite IH, E, H. reflexivity.
  - eapply total_same; [|exact W]. intros m m' [H _]. exact H.
Qed.

Lemma axis_mass_scaled : forall per len len' k s (l l' : list mass) c, s <> 0 -> len' = s * len ->
  Forall2 (fun m m' : mass => snd m' = snd m /\ coordinate k (fst m') = s * coordinate k (fst m)) l l' ->
  axis_mass per len k l = Num c -> axis_mass per len' k l' = Num (s * c).
Proof.
  intros per len len' k s l l' c Z EL W.
  assert (T : total snd l' = total snd l) by (eapply total_same; [|exact W]; intros m m' [H _]; exact H).
  destruct per; unfold axis_mass; cbn [negb].
  - destruct (Req_EM_T len 0) as [|NL]; [discriminate|]. destruct (Req_EM_T len' 0) as [E|NL']; [exfalso; rewrite E in EL; symmetry in EL; apply Rmult_integral in EL; tauto|].
    assert (G : forall f : R -> R, wavg (fun p => f (2 * PI * coordinate k p / len')) l' = wavg (fun p => f (2 * PI * coordinate k p / len)) l).
    { intros f. apply wavg_same. clear -W Z EL NL NL'. induction W as [|m m' l l' [E H] _ IH]; constructor; auto. split; [exact E|].
      rewrite H, EL. f_equal. field. auto. }
    rewrite (G sin), (G cos). unfold minus_of. rewrite T. destruct (atan2 _ _ _); try discriminate. intros E. injection E as <-.
    f_equal. rewrite EL. field. apply Rgt_not_eq, PI_RGT_0.
  - assert (S : total (fun m => snd m * coordinate k (fst m)) l' = s * total (fun m => snd m * coordinate k (fst m)) l).
    { clear -W. induction W as [|m m' l l' [E H] _ IH]; cbn [total]; [ring|]. rewrite IH, E, H. ring. }
    unfold wavg. rewrite S, T. unfold quotient. destruct (Req_EM_T (total snd l) 0) as [|NT].
    + repeat match goal with |- context [if ?b then _ else _] => destruct b end; discriminate.
    + intros E. injection E as <-. f_equal. field. exact NT.
Qed.

Lemma mass_scaled : forall shape shape' (l l' : list mass) s per r, fit shape (map fst l) -> (forall k, s k <> 0) ->
  scaled_box s shape shape' -> Forall2 (scaled_mass s) l l' -> center_of_mass shape (map fst l) (map snd l) per = Ok r ->
  exists r', center_of_mass shape' (map fst l') (map snd l') per = Ok r' /\ forall k c, at_axis r k c -> at_axis r' k (s k * c).
Proof.
  intros shape shape' l l' s per r F P (BL & BS) W E.
  assert (F' : fit shape' (map fst l')).
  { intros p Hp. rewrite BL. revert p Hp. eapply fit_related; [|exact F|exact W]. intros m m' (_ & H & _). exact H. }
  destruct l as [|m l].
  - inversion W; subst. cbn [map] in *. rewrite mass_none in E |- *. injection E as <-. exists (map (fun _ => Num 0) shape'). split; [reflexivity|].
    intros k c. unfold at_axis. rewrite !nth_error_map. destruct (nth_error shape k) eqn:H; [|discriminate]. cbn. intros X. injection X as <-.
    destruct (nth_error shape' k) eqn:H'; cbn; [now rewrite Rmult_0_r|]. apply nth_error_None in H'. assert (nth_error shape k <> None) by congruence. apply nth_error_Some in H0. lia.
  - destruct l' as [|m' l']; [inversion W|].
    destruct (mass_runs shape (m :: l) per F ltac:(discriminate)) as (x & X & LX & A).
    destruct (mass_runs shape' (m' :: l') per F' ltac:(discriminate)) as (y & Y & _ & B).
    rewrite E in X. injection X as <-. exists y. split; [exact Y|]. intros k c H.
    assert (K : (k < length shape)%nat). { rewrite <- LX. apply nth_error_Some. unfold at_axis in H. congruence. }
    unfold at_axis in *. rewrite B by lia. rewrite A in H by exact K. injection H as H. f_equal.
    apply (axis_mass_scaled per (side shape k) (side shape' k) k (s k) (m :: l) (m' :: l') c (P k) (BS k K)); [|exact H].
    clear -W F K. revert F. induction W as [|a b u v (E & L & H) W IH]; intros F; constructor; auto.
    + split; [exact E|]. apply H. rewrite F by (left; reflexivity). exact K.
    + apply IH. intros q Hq. apply F. right. exact Hq.
Qed.

(** ** Unions *)
Lemma total_app : forall A (f : A -> R) l l', total f (l ++ l') = total f l + total f l'.
Proof. intros A f l l'. induction l; cbn [app total]; [ring|]. rewrite IHl. ring. Qed.

Lemma mass_union : forall shape (l l' : list mass) k, fit shape (map fst l) -> fit shape (map fst l') ->
  total snd l <> 0 -> total snd l' <> 0 -> total snd l + total snd l' <> 0 -> (k < length shape)%nat ->
  exists r r' r'' c c' c'', center_of_mass shape (map fst l) (map snd l) false = Ok r /\ center_of_mass shape (map fst l') (map snd l') false = Ok r' /\
    center_of_mass shape (map fst (l ++ l')) (map snd (l ++ l')) false = Ok r'' /\ at_axis r k c /\ at_axis r' k c' /\ at_axis r'' k c'' /\
    c'' = (total snd l * c + total snd l' * c') / (total snd l + total snd l').
Proof.
  intros shape l l' k F F' N N' NN K.
  destruct (mass_mean shape l k F N K) as (r & c & E & _ & A & M & _).
  destruct (mass_mean shape l' k F' N' K) as (r' & c' & E' & _ & A' & M' & _).
  destruct (mass_mean shape (l ++ l') k) as (r'' & c'' & E'' & _ & A'' & M'' & _);
    [rewrite map_app; intros p Hp; apply in_app_or in Hp; destruct Hp; auto|rewrite total_app; exact NN|exact K|].
  exists r, r', r'', c, c', c''. repeat (split; [assumption|]). 
  assert (M3 : c'' * (total snd l + total snd l') = c * total snd l + c' * total snd l').
  { rewrite M, M'. etransitivity; [|exact (total_app _ _ l l')]. etransitivity; [|exact M'']. f_equal. symmetry. apply total_app. }
  apply (Rmult_eq_reg_r (total snd l + total snd l')); [|exact NN]. transitivity (c * total snd l + c' * total snd l'); [exact M3|]. field. exact NN.
Qed.

(** ** Images *)
Lemma matched_pixels : forall shape shape' T pixels, matching shape shape' T -> (forall p, In p pixels -> pixel shape p) -> exists pixels', Forall2 T pixels pixels'.
Proof.
  intros shape shape' T pixels (_ & TT & _) H. induction pixels as [|p l IH]; [exists []; constructor|].
  destruct (TT p (H p (or_introl eq_refl))) as (q & Q). destruct IH as (l' & L); [intros; apply H; right; assumption|]. exists (q :: l'). constructor; assumption.
Qed.

Lemma matched_carries : forall shape shape' T labels labels' name pixels pixels', matching shape shape' T ->
  carried T labels labels' -> carries shape labels name pixels -> Forall2 T pixels pixels' -> carries shape' labels' name pixels'.
Proof.
  intros shape shape' T labels labels' name pixels pixels' (TP & TT & TS & TF & TI) HC (ND & HI) HF.
  assert (B : forall q, In q pixels' <-> exists p, In p pixels /\ T p q).
  { clear -HF TF. induction HF as [|p q l l' H HF IH]; intros x; cbn [In].
    - split; [intros []|intros (p & [] & _)].
    - rewrite IH. split.
      + intros [<-|(p' & A & B)]; [exists p; auto|exists p'; auto].
      + intros (p' & [<-|A] & B); [left; exact (TF _ _ _ H B)|right; exists p'; auto]. }
  split.
  - clear B HI. induction HF as [|p q l l' H HF IH]; [constructor|]. inversion ND as [|? ? N1 N2]; subst. constructor; [|apply IH; assumption].
    intro X. apply N1. clear -X HF H TI. induction HF as [|a b l l' H' HF IH]; [destruct X|]. destruct X as [<-|X]; [left; exact (TI _ _ _ H' H)|right; auto].
  - intros q. rewrite B. split.
    + intros (p & Ip & R). apply HI in Ip. split; [apply (TP _ _ R)|]. rewrite <- (proj2 Ip). exact (carried_zn _ _ _ HC p q R).
    + intros (Q & E). destruct (TS q Q) as (p & R). exists p. split; [|exact R]. apply HI. split; [apply (TP _ _ R)|]. rewrite <- E. symmetry. exact (carried_zn _ _ _ HC p q R).
Qed.

Lemma carried_nth : forall A (d : A) T a b, carried T a b -> forall p q, T p q -> nth (Z.to_nat q) b d = nth (Z.to_nat p) a d.
Proof.
  intros A d T a b H p q HT. specialize (H p q HT). destruct (nth_error a (Z.to_nat p)) eqn:E.
  - rewrite (nth_error_nth b _ _ H), (nth_error_nth a _ _ E). reflexivity.
  - apply nth_error_None in E, H. rewrite !nth_overflow by assumption. reflexivity.
Qed.

(** The reflection of the pixels of an image. *)
Definition mirror (which : list bool) (k : nat) : bool := nth k which false.
Definition far_end (shape : list Z) (k : nat) : R := IZR (nth k shape 0%Z - 1).

Lemma flipped_coordinates : forall which shape a b, flipped which shape a b ->
  length b = length a /\ forall k, (k < length a)%nat -> coordinate k (map IZR b) = reflect (mirror which) (far_end shape) k (coordinate k (map IZR a)).
Proof.
  induction which as [|w which IH]; intros [|n shape] [|x a] [|y b]; cbn [flipped]; try tauto.
  - intros _. split; [reflexivity|intros k Hk; cbn in Hk; lia].
  - intros [E M]. destruct (IH shape a b M) as (L & D). split; [cbn; lia|]. intros [|k] Hk.
    + unfold reflect, mirror, far_end, coordinate. cbn [nth map]. destruct w; rewrite E; [|reflexivity]. rewrite <- minus_IZR. reflexivity.
    + cbn [length] in Hk. specialize (D k ltac:(lia)). exact D.
Qed.

Lemma flipped_masses : forall which shape w w' pixels pixels', carried (flips which shape) w w' -> Forall2 (flips which shape) pixels pixels' ->
  Forall2 (reflected_mass (mirror which) (far_end shape)) (masses_of shape w pixels) (masses_of shape w' pixels').
Proof.
  intros which shape w w' pixels pixels' HC HF. induction HF as [|p q l l' R HF IH]; [constructor|]. cbn [masses_of map]. constructor; [|exact IH].
  pose proof R as (_ & _ & FL). destruct (flipped_coordinates _ _ _ _ FL) as (L & D). split; [|split]; cbn [fst snd].
  - exact (carried_nth _ 0 _ _ _ HC p q R).
  - rewrite !map_length. exact L.
  - intros k Hk. apply D. rewrite map_length in Hk. exact Hk.
Qed.

Lemma flipped_units : forall which shape pixels pixels', Forall2 (flips which shape) pixels pixels' ->
  Forall2 (reflected_mass (mirror which) (far_end shape)) (unit_mass (positions_of shape pixels)) (unit_mass (positions_of shape pixels')).
Proof.
  intros which shape pixels pixels' HF. induction HF as [|p q l l' R HF IH]; [constructor|]. constructor; [|exact IH].
  destruct R as (_ & _ & FL). destruct (flipped_coordinates _ _ _ _ FL) as (L & D). split; [reflexivity|split]; cbn [fst snd].
  - rewrite !map_length. exact L.
  - intros k Hk. apply D. rewrite map_length in Hk. exact Hk.
Qed.

Lemma one_center : forall asrt shape labels name per pixels r, shape <> [] -> lenZ labels = zprod shape -> carries shape labels name pixels ->
  center_of_mass (map IZR shape) (map fst (unit_mass (positions_of shape pixels))) (map snd (unit_mass (positions_of shape pixels))) per = Ok r ->
  labels_centers asrt shape labels [name] per = Ok [r].
Proof.
  intros asrt shape labels name per pixels r N L C E. rewrite <- center_as_mass in E by apply fit_positions.
  destruct (labels_centers_ok asrt shape labels [name] per N L) as (rows & R & RF).
  inversion RF as [|? x ? xs H1 H2]; subst. inversion H2; subst. specialize (H1 _ C). rewrite R. congruence.
Qed.

Lemma one_center_of_mass : forall asrt shape labels w name per pixels r, good_shape shape -> lenZ labels = zprod shape -> lenZ w = zprod shape ->
  carries shape labels name pixels ->
  center_of_mass (map IZR shape) (map fst (masses_of shape w pixels)) (map snd (masses_of shape w pixels)) per = Ok r ->
  labels_centers_of_mass asrt shape labels shape w [name] per = Ok [r].
Proof.
  intros asrt shape labels w name per pixels r G L LW C E. rewrite masses_fst, masses_snd in E.
  assert (NN : Forall (fun n => (0 <= n)%Z) shape) by (destruct G as (_ & H & _); exact H).
  destruct (labels_mass_ok asrt shape labels w [name] per (proj1 G) NN L LW) as (rows & R & RF).
  inversion RF as [|? x ? xs H1 H2]; subst. inversion H2; subst. specialize (H1 _ C). rewrite R. congruence.
Qed.

Lemma carried_positive : forall shape labels name pixels k, good_shape shape -> carries shape labels name pixels -> pixels <> [] -> (k < length shape)%nat ->
  0 < side (map IZR shape) k.
Proof.
  intros shape labels name pixels k G HP NE K.
  assert (POS : Forall (fun n => (0 < n)%Z) shape).
  { destruct pixels as [|p pixels]; [congruence|]. apply (good_positive shape G p). apply (proj2 HP). left. reflexivity. }
  unfold side. change 0 with (IZR 0%Z) at 2. rewrite map_nth. apply IZR_lt. rewrite Forall_nth in POS. apply POS. exact K.
Qed.

Lemma unit_fit : forall shape pixels, fit (map IZR shape) (map fst (unit_mass (positions_of shape pixels))).
Proof. intros. unfold unit_mass. rewrite map_map. cbn. rewrite map_id. apply fit_positions. Qed.
Lemma masses_fit : forall shape w pixels, fit (map IZR shape) (map fst (masses_of shape w pixels)).
Proof. intros. rewrite masses_fst. apply fit_positions. Qed.

Lemma unit_nonempty : forall shape pixels, pixels <> [] -> 0 < total snd (unit_mass (positions_of shape pixels)).
Proof. intros shape pixels H. apply unit_pos. destruct pixels; [congruence|discriminate]. Qed.

Lemma flip_centers : forall asrt shape which labels labels' name pixels k, good_shape shape -> length which = length shape ->
  lenZ labels = zprod shape -> lenZ labels' = zprod shape -> carried (flips which shape) labels labels' ->
  carries shape labels name pixels -> pixels <> [] -> (k < length shape)%nat ->
  exists r r' c c', labels_centers asrt shape labels [name] false = Ok [r] /\ labels_centers asrt shape labels' [name] false = Ok [r'] /\
    at_axis r k c /\ at_axis r' k c' /\ c' = flip_point which shape k c.
Proof.
  intros asrt shape which labels labels' name pixels k G HW L L' HC HP NE K.
  pose proof (flips_matching which shape (good_positive shape G) HW) as MT.
  destruct (matched_pixels _ _ _ pixels MT) as (pixels' & RP); [intros p Hp; apply (proj2 HP) in Hp; tauto|].
  pose proof (matched_carries _ _ _ _ _ _ _ _ MT HC HP RP) as HP'.
  pose proof (unit_nonempty shape pixels NE) as W.
  destruct (mass_reflect_mean (map IZR shape) _ _ _ _ k (unit_fit shape pixels) (Rgt_not_eq _ _ W) (flipped_units _ _ _ _ RP)) as (r & r' & c & c' & E & E' & A & A' & P);
    [rewrite map_length; exact K|].
  exists r, r', c, c'. split; [exact (one_center _ _ _ _ _ _ _ (proj1 G) L HP E)|]. split; [exact (one_center _ _ _ _ _ _ _ (proj1 G) L' HP' E')|].
  split; [exact A|]. split; [exact A'|exact P].
Qed.

Lemma flip_centers_periodic : forall asrt shape which labels labels' name pixels k, good_shape shape -> length which = length shape ->
  lenZ labels = zprod shape -> lenZ labels' = zprod shape -> carried (flips which shape) labels labels' ->
  carries shape labels name pixels -> pixels <> [] -> (k < length shape)%nat ->
  ~ balanced (side (map IZR shape) k) k (unit_mass (positions_of shape pixels)) ->
  exists r r' c c', labels_centers asrt shape labels [name] true = Ok [r] /\ labels_centers asrt shape labels' [name] true = Ok [r'] /\
    at_axis r k c /\ at_axis r' k c' /\ same_point (side (map IZR shape) k) (flip_point which shape k c) c'.
Proof.
  intros asrt shape which labels labels' name pixels k G HW L L' HC HP NE K NB.
  pose proof (flips_matching which shape (good_positive shape G) HW) as MT.
  destruct (matched_pixels _ _ _ pixels MT) as (pixels' & RP); [intros p Hp; apply (proj2 HP) in Hp; tauto|].
  pose proof (matched_carries _ _ _ _ _ _ _ _ MT HC HP RP) as HP'.
  pose proof (unit_nonempty shape pixels NE) as W. pose proof (carried_positive _ _ _ _ k G HP NE K) as S.
  destruct (mass_reflect (map IZR shape) _ _ _ _ k (unit_fit shape pixels) W (flipped_units _ _ _ _ RP)) as (r & r' & c & c' & E & E' & A & A' & P);
    [rewrite map_length; exact K|exact S|exact NB|].
  exists r, r', c, c'. split; [exact (one_center _ _ _ _ _ _ _ (proj1 G) L HP E)|]. split; [exact (one_center _ _ _ _ _ _ _ (proj1 G) L' HP' E')|].
  split; [exact A|]. split; [exact A'|exact P].
Qed.

Lemma flip_masses : forall asrt shape which labels labels' w w' name pixels k, good_shape shape -> length which = length shape ->
  lenZ labels = zprod shape -> lenZ labels' = zprod shape -> lenZ w = zprod shape -> lenZ w' = zprod shape ->
  carried (flips which shape) labels labels' -> carried (flips which shape) w w' ->
  carries shape labels name pixels -> total snd (masses_of shape w pixels) <> 0 -> (k < length shape)%nat ->
  exists r r' c c', labels_centers_of_mass asrt shape labels shape w [name] false = Ok [r] /\
    labels_centers_of_mass asrt shape labels' shape w' [name] false = Ok [r'] /\
    at_axis r k c /\ at_axis r' k c' /\ c' = flip_point which shape k c.
Proof.
  intros asrt shape which labels labels' w w' name pixels k G HW L L' LW LW' HC HCW HP W K.
  pose proof (flips_matching which shape (good_positive shape G) HW) as MT.
  destruct (matched_pixels _ _ _ pixels MT) as (pixels' & RP); [intros p Hp; apply (proj2 HP) in Hp; tauto|].
  pose proof (matched_carries _ _ _ _ _ _ _ _ MT HC HP RP) as HP'.
  destruct (mass_reflect_mean (map IZR shape) _ _ _ _ k (masses_fit shape w pixels) W (flipped_masses _ _ _ _ _ _ HCW RP)) as (r & r' & c & c' & E & E' & A & A' & P);
    [rewrite map_length; exact K|].
  exists r, r', c, c'. split; [exact (one_center_of_mass _ _ _ _ _ _ _ _ G L LW HP E)|]. split; [exact (one_center_of_mass _ _ _ _ _ _ _ _ G L' LW' HP' E')|].
  split; [exact A|]. split; [exact A'|exact P].
Qed.

Lemma flip_masses_periodic : forall asrt shape which labels labels' w w' name pixels k, good_shape shape -> length which = length shape ->
  lenZ labels = zprod shape -> lenZ labels' = zprod shape -> lenZ w = zprod shape -> lenZ w' = zprod shape ->
  carried (flips which shape) labels labels' -> carried (flips which shape) w w' ->
  carries shape labels name pixels -> 0 < total snd (masses_of shape w pixels) -> (k < length shape)%nat ->
  ~ balanced (side (map IZR shape) k) k (masses_of shape w pixels) ->
  exists r r' c c', labels_centers_of_mass asrt shape labels shape w [name] true = Ok [r] /\
    labels_centers_of_mass asrt shape labels' shape w' [name] true = Ok [r'] /\
    at_axis r k c /\ at_axis r' k c' /\ same_point (side (map IZR shape) k) (flip_point which shape k c) c'.
Proof.
  intros asrt shape which labels labels' w w' name pixels k G HW L L' LW LW' HC HCW HP W K NB.
  pose proof (flips_matching which shape (good_positive shape G) HW) as MT.
  destruct (matched_pixels _ _ _ pixels MT) as (pixels' & RP); [intros p Hp; apply (proj2 HP) in Hp; tauto|].
  pose proof (matched_carries _ _ _ _ _ _ _ _ MT HC HP RP) as HP'.
  assert (NE : pixels <> []) by (intros ->; cbn in W; lra).
  pose proof (carried_positive _ _ _ _ k G HP NE K) as S.
  destruct (mass_reflect (map IZR shape) _ _ _ _ k (masses_fit shape w pixels) W (flipped_masses _ _ _ _ _ _ HCW RP)) as (r & r' & c & c' & E & E' & A & A' & P);
    [rewrite map_length; exact K|exact S|exact NB|].
  exists r, r', c, c'. split; [exact (one_center_of_mass _ _ _ _ _ _ _ _ G L LW HP E)|]. split; [exact (one_center_of_mass _ _ _ _ _ _ _ _ G L' LW' HP' E')|].
  split; [exact A|]. split; [exact A'|exact P].
Qed.

Lemma flip_four : forall p q, flips [true] [4%Z] p q -> (p = 0 /\ q = 3 \/ p = 1 /\ q = 2 \/ p = 2 /\ q = 1 \/ p = 3 /\ q = 0)%Z.
Proof.
  intros p q (Hp & Hq & M). unfold pixel in Hp, Hq. cbn [zprod coords flipped] in *. destruct M as [M _]. rewrite !Z.div_1_r in M. lia.
Qed.

Lemma flip_balanced : exists shape which labels labels' name r r' c c', good_shape shape /\ length which = length shape /\
  lenZ labels = zprod shape /\ lenZ labels' = zprod shape /\ carried (flips which shape) labels labels' /\ In name labels /\
  labels_centers true shape labels [name] true = Ok [r] /\ labels_centers true shape labels' [name] true = Ok [r'] /\ at_axis r 0 c /\ at_axis r' 0 c' /\
  ~ same_point (side (map IZR shape) 0) (flip_point which shape 0 c) c'.
Proof.
  exists [4%Z], [true], [5; 0; 5; 0]%Z, [0; 5; 0; 5]%Z, 5%Z.
  destruct (four_positions [[0]; [2]]) as (r & E & A); [intros p [<-|[<-|[]]]; reflexivity|discriminate|auto|].
  destruct (four_positions [[1]; [3]]) as (r' & E' & A'); [intros p [<-|[<-|[]]]; reflexivity|discriminate|auto|].
  exists r, r', 0, 0.
  split; [split; [discriminate|]; split; [repeat constructor; lia|reflexivity]|]. split; [reflexivity|]. split; [reflexivity|]. split; [reflexivity|].
  split. { intros p q H. apply flip_four in H. decompose [or and] H; subst; reflexivity. }
  split; [left; reflexivity|].
  assert (GG : forall l ps r, where_equal [4%Z] l 5 = ps -> no_positions [4] (to_double ps) = false -> center [4] (to_double ps) true = Ok r ->
    labels_centers true [4%Z] l [5%Z] true = Ok [r]).
  { intros l ps x W N C. unfold labels_centers. cbn [assertb length Nat.ltb Nat.leb bind mapM map]. rewrite W. change (map IZR [4%Z]) with [4].
    rewrite N, C. reflexivity. }
  split; [apply (GG _ [[0%Z]; [2%Z]]); [vm_compute; reflexivity|reflexivity|exact E]|].
  split; [apply (GG _ [[1%Z]; [3%Z]]); [vm_compute; reflexivity|reflexivity|exact E']|].
  split; [exact A|]. split; [exact A'|]. intros [m M]. unfold side, flip_point in M. cbn [nth map] in M. change (4 - 1)%Z with 3%Z in M.
  assert (H : 4 * IZR m = -3) by lra. rewrite <- mult_IZR in H. apply eq_IZR in H. lia.
Qed.

(** Transposed images: the same numbers, in the opposite order. *)
Lemma nth_rev_coordinate : forall l k, (k < length l)%nat -> coordinate (length l - 1 - k) (rev l) = coordinate k l.
Proof. intros l k H. unfold coordinate. rewrite rev_nth by lia. f_equal. lia. Qed.

Lemma reversed_rows : forall (r r' : list num), length r' = length r ->
  (forall k, (k < length r)%nat -> exists x, nth_error r k = Some x /\ nth_error r' (length r - 1 - k) = Some x) -> r' = rev r.
Proof.
  intros r r' L H. apply (nth_ext _ _ NaN NaN); [rewrite rev_length; exact L|]. intros j Hj. rewrite rev_nth by lia.
  destruct (H (length r - S j)%nat ltac:(lia)) as (x & X & Y). replace (length r - 1 - (length r - S j))%nat with j in Y by lia.
  rewrite (nth_error_nth _ _ _ X), (nth_error_nth _ _ _ Y). reflexivity.
Qed.

Lemma transposed_along : forall shape w w' pixels pixels' k, carried (transposes shape) w w' -> Forall2 (transposes shape) pixels pixels' -> (k < length shape)%nat ->
  Forall2 (same_along k (length shape - 1 - k)) (masses_of shape w pixels) (masses_of (rev shape) w' pixels').
Proof.
  intros shape w w' pixels pixels' k HC HF K. induction HF as [|p q l l' R HF IH]; [constructor|]. cbn [masses_of map]. constructor; [|exact IH].
  split; cbn [fst snd]; [exact (carried_nth _ 0 _ _ _ HC p q R)|]. destruct R as (_ & _ & E). rewrite E, map_rev.
  replace (length shape) with (length (map IZR (coords shape p))) by (rewrite map_length; apply coords_length). apply nth_rev_coordinate.
  rewrite map_length, coords_length. exact K.
Qed.

Lemma transposed_units : forall shape pixels pixels' k, Forall2 (transposes shape) pixels pixels' -> (k < length shape)%nat ->
  Forall2 (same_along k (length shape - 1 - k)) (unit_mass (positions_of shape pixels)) (unit_mass (positions_of (rev shape) pixels')).
Proof.
  intros shape pixels pixels' k HF K. induction HF as [|p q l l' R HF IH]; [constructor|]. constructor; [|exact IH].
  split; cbn [fst snd]; [reflexivity|]. destruct R as (_ & _ & E). rewrite E, map_rev.
  replace (length shape) with (length (map IZR (coords shape p))) by (rewrite map_length; apply coords_length). apply nth_rev_coordinate.
  rewrite map_length, coords_length. exact K.
Qed.

Lemma mass_total : forall shape (l : list mass) per, fit shape (map fst l) -> exists r, center_of_mass shape (map fst l) (map snd l) per = Ok r /\ length r = length shape.
Proof.
  intros shape [|m l] per F; [cbn [map]; rewrite mass_none; eexists; split; [reflexivity|now rewrite map_length]|].
  destruct (mass_runs shape (m :: l) per F ltac:(discriminate)) as (r & E & L & _). exists r. auto.
Qed.

Lemma side_rev : forall shape k, (k < length shape)%nat -> side (map IZR (rev shape)) (length shape - 1 - k) = side (map IZR shape) k.
Proof. intros shape k K. unfold side. rewrite map_rev, rev_nth by (rewrite map_length; lia). rewrite map_length. f_equal. lia. Qed.

Lemma transposed_row : forall shape (l l' : list mass) per r r', fit (map IZR shape) (map fst l) -> fit (map IZR (rev shape)) (map fst l') ->
  (forall k, (k < length shape)%nat -> Forall2 (same_along k (length shape - 1 - k)) l l') ->
  center_of_mass (map IZR shape) (map fst l) (map snd l) per = Ok r -> center_of_mass (map IZR (rev shape)) (map fst l') (map snd l') per = Ok r' -> r' = rev r.
Proof.
  intros shape l l' per r r' F F' H E E'.
  destruct (mass_total _ _ per F) as (x & X & LX). destruct (mass_total _ _ per F') as (y & Y & LY). rewrite E in X. injection X as <-. rewrite E' in Y. injection Y as <-.
  rewrite map_length in LX. rewrite map_length, rev_length in LY. apply reversed_rows; [lia|]. intros k K. rewrite LX in *.
  apply (mass_axis (map IZR shape) (map IZR (rev shape)) l l' per k (length shape - 1 - k) r r'); auto; rewrite ?map_length, ?rev_length; try lia.
  apply side_rev. exact K.
Qed.

Lemma carries_hits : forall shape labels name, lenZ labels = zprod shape -> exists pixels, carries shape labels name pixels.
Proof.
  intros shape labels name L. exists (filter (fun p => Z.eqb (nth (Z.to_nat p) labels 0%Z) name) (zrange 0 (zprod shape))). split.
  - apply NoDup_filter, zrange_NoDup.
  - intros p. rewrite filter_In, zrange_In, Z.eqb_eq. unfold pixel. tauto.
Qed.

Lemma transpose_centers : forall asrt shape labels labels' names per, good_shape shape -> lenZ labels = zprod shape -> lenZ labels' = zprod shape ->
  carried (transposes shape) labels labels' ->
  exists rows, labels_centers asrt shape labels names per = Ok rows /\ labels_centers asrt (rev shape) labels' names per = Ok (map (@rev num) rows).
Proof.
  intros asrt shape labels labels' names per G L L' HC.
  pose proof (transposes_matching shape (good_positive shape G)) as MT.
  assert (N : rev shape <> []). { intros H. apply (proj1 G). rewrite <- (rev_involutive shape), H. reflexivity. }
  assert (L2 : lenZ labels' = zprod (rev shape)) by (rewrite zprod_rev; exact L').
  destruct (labels_centers_ok asrt shape labels names per (proj1 G) L) as (rows & R & RF).
  destruct (labels_centers_ok asrt (rev shape) labels' names per N L2) as (rows' & R' & RF').
  exists rows. split; [exact R|]. rewrite R'. f_equal. clear R R'. revert rows' RF'. induction RF as [|name row names rows H RF IH]; intros rows' RF'; inversion RF' as [|? row' ? rows'' H' RF'']; subst; [reflexivity|].
  cbn [map]. f_equal; [|apply IH; exact RF''].
  destruct (carries_hits shape labels name L) as (pixels & HP).
  destruct (matched_pixels _ _ _ pixels MT) as (pixels' & RP); [intros p Hp; apply (proj2 HP) in Hp; tauto|].
  pose proof (matched_carries _ _ _ _ _ _ _ _ MT HC HP RP) as HP'. specialize (H _ HP). specialize (H' _ HP').
  rewrite center_as_mass in H, H' by apply fit_positions.
  apply (transposed_row shape _ _ per row row' (unit_fit _ _) (unit_fit _ _)) with (2 := H) (3 := H').
  intros k K. apply transposed_units; assumption.
Qed.

Lemma transpose_masses : forall asrt shape labels labels' w w' names per, good_shape shape -> lenZ labels = zprod shape -> lenZ labels' = zprod shape ->
  lenZ w = zprod shape -> lenZ w' = zprod shape -> carried (transposes shape) labels labels' -> carried (transposes shape) w w' ->
  exists rows, labels_centers_of_mass asrt shape labels shape w names per = Ok rows /\
    labels_centers_of_mass asrt (rev shape) labels' (rev shape) w' names per = Ok (map (@rev num) rows).
Proof.
  intros asrt shape labels labels' w w' names per G L L' LW LW' HC HCW.
  pose proof (transposes_matching shape (good_positive shape G)) as MT.
  assert (N : rev shape <> []). { intros H. apply (proj1 G). rewrite <- (rev_involutive shape), H. reflexivity. }
  assert (L2 : lenZ labels' = zprod (rev shape)) by (rewrite zprod_rev; exact L').
  assert (LW2 : lenZ w' = zprod (rev shape)) by (rewrite zprod_rev; exact LW').
  assert (NN : Forall (fun n => (0 <= n)%Z) shape) by (destruct G as (_ & H & _); exact H).
  destruct (labels_mass_ok asrt shape labels w names per (proj1 G) NN L LW) as (rows & R & RF).
  destruct (labels_mass_ok asrt (rev shape) labels' w' names per N (Forall_rev NN) L2 LW2) as (rows' & R' & RF').
  exists rows. split; [exact R|]. rewrite R'. f_equal. clear R R'. revert rows' RF'. induction RF as [|name row names rows H RF IH]; intros rows' RF'; inversion RF' as [|? row' ? rows'' H' RF'']; subst; [reflexivity|].
  cbn [map]. f_equal; [|apply IH; exact RF''].
  destruct (carries_hits shape labels name L) as (pixels & HP).
  destruct (matched_pixels _ _ _ pixels MT) as (pixels' & RP); [intros p Hp; apply (proj2 HP) in Hp; tauto|].
  pose proof (matched_carries _ _ _ _ _ _ _ _ MT HC HP RP) as HP'. specialize (H _ HP). specialize (H' _ HP').
  rewrite <- (masses_fst shape w pixels), <- (masses_snd shape w pixels) in H. rewrite <- (masses_fst (rev shape) w' pixels'), <- (masses_snd (rev shape) w' pixels') in H'.
  apply (transposed_row shape _ _ per row row' (masses_fit _ _ _) (masses_fit _ _ _)) with (2 := H) (3 := H').
  intros k K. apply transposed_along; assumption.
Qed.

(** Merged labels. *)
Lemma NoDup_both : forall A (l l' : list A), NoDup l -> NoDup l' -> (forall x, In x l -> ~ In x l') -> NoDup (l ++ l').
Proof.
  induction l as [|x l IH]; intros l' H H' D; [exact H'|]. inversion H as [|? ? N1 N2]; subst. cbn [app]. constructor.
  - rewrite in_app_iff. intros [I|I]; [auto|]. apply (D x); simpl; auto.
  - apply IH; auto. intros y Hy. apply D. simpl. auto.
Qed.
Lemma total_units : forall ps, total snd (unit_mass ps) = INR (length ps).
Proof. induction ps as [|p ps IH]; [reflexivity|]. cbn [unit_mass map total snd length]. fold (unit_mass ps). rewrite IH, S_INR. ring. Qed.

Lemma merged_centers : forall asrt shape labels merged a b m pa pb k, good_shape shape -> lenZ labels = zprod shape -> a <> b -> merges labels merged a b m ->
  carries shape labels a pa -> carries shape labels b pb -> pa <> [] -> pb <> [] -> (k < length shape)%nat ->
  exists ra rb r ca cb c, labels_centers asrt shape labels [a; b] false = Ok [ra; rb] /\ labels_centers asrt shape merged [m] false = Ok [r] /\
    at_axis ra k ca /\ at_axis rb k cb /\ at_axis r k c /\
    c = (INR (length pa) * ca + INR (length pb) * cb) / (INR (length pa) + INR (length pb)).
Proof.
  intros asrt shape labels merged a b m pa pb k G L NE (ML & MH) HA HB NA NB K.
  assert (LM : lenZ merged = zprod shape) by (unfold lenZ in *; rewrite ML; exact L).
  assert (HM : carries shape merged m (pa ++ pb)).
  { split.
    - apply NoDup_both; [apply HA|apply HB|]. intros x X Y. apply (proj2 HA) in X. apply (proj2 HB) in Y. apply NE. rewrite <- (proj2 X). apply Y.
    - intros p. rewrite in_app_iff, (proj2 HA), (proj2 HB). assert (Q : pixel shape p -> (Z.to_nat p < length labels)%nat) by (unfold pixel, lenZ in *; lia).
      split; [intros [[X Y]|[X Y]]; (split; [exact X|]); apply MH; auto|]. intros [X Y]. apply MH in Y; [|auto]. tauto. }
  set (la := unit_mass (positions_of shape pa)). set (lb := unit_mass (positions_of shape pb)).
  assert (EL : unit_mass (positions_of shape (pa ++ pb)) = la ++ lb) by (unfold la, lb, unit_mass, positions_of; rewrite !map_app; reflexivity).
  pose proof (unit_nonempty shape pa NA) as WA. pose proof (unit_nonempty shape pb NB) as WB. fold la in WA. fold lb in WB.
  destruct (mass_union (map IZR shape) la lb k) as (ra & rb & r & ca & cb & c & EA & EB & E & A & B & C & H); try apply unit_fit; try lra; [rewrite map_length; exact K|].
  rewrite <- EL in E. exists ra, rb, r, ca, cb, c.
  split.
  { destruct (labels_centers_ok asrt shape labels [a; b] false (proj1 G) L) as (rows & R & RF). unfold la in EA. unfold lb in EB.
    rewrite <- center_as_mass in EA, EB by apply fit_positions.
    inversion RF as [|? x ? xs H1 H2]; subst. inversion H2 as [|? y ? ys H3 H4]; subst. inversion H4; subst. specialize (H1 _ HA). specialize (H3 _ HB). rewrite R. congruence. }
  split; [exact (one_center _ _ _ _ _ _ _ (proj1 G) LM HM E)|]. do 3 (split; [assumption|]).
  unfold la, lb in H. rewrite !total_units in H. unfold positions_of in H. rewrite !map_length in H. exact H.
Qed.
