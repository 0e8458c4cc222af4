(** * EnsembleRefute: concrete cases in which a property fails *)

From Coq Require Import ZArith QArith Qcanon List Bool Lia.
From Verif Require Import Base BaseLemmas SpecCluster SpecDilate SpecPath Path Ensemble SpecEnsemble EnsembleSums.
Import ListNotations.
Open Scope Z_scope.

Definition first_of (x : res ens) (r : Z) : option Q := match x with Ok e => Some (this (first_at e r)) | _ => None end.

(** An exact value, as a fraction. *)
Definition shown (v : value) : option Q := match v with Exact q => Some (this q) | _ => None end.

Lemma differ : forall x y r a b, first_of x r = Some a -> first_of y r = Some b -> Qeq_bool a b = false ->
  exists e e', x = Ok e /\ y = Ok e' /\ first_at e r <> first_at e' r.
Proof.
  intros [e| | |] [e'| | |] r a b HA HB HN; try discriminate. cbn in HA, HB. inversion HA; inversion HB; subst. exists e, e'. split; auto. split; auto.
  intros E. rewrite E in HN. assert (T : Qeq_bool (this (first_at e' r)) (this (first_at e' r)) = true) by (apply Qeq_bool_iff; reflexivity). congruence.
Qed.

Lemma same_by_list : forall A shape (m : img Z) (f f' : img A), is_image shape f -> is_image shape f' -> is_mask shape m ->
  Forall2 (fun z p => z = 0 -> fst p = snd p) (i_vals m) (combine (i_vals f) (i_vals f')) -> same_unmasked shape m f f'.
Proof.
  intros A shape m f f' Hf Hf' Hm H. split; auto. split; auto. split; auto. intros p Hp Hz. destruct Hf as (_ & Lf). destruct Hf' as (_ & Lf'). destruct Hm as ((_ & Lm) & _).
  unfold pixel in Hp. rewrite <- Lm in Hp at 1. unfold zn, lenZ in *. assert (E1 : length (i_vals f) = length (i_vals m)) by lia. assert (E2 : length (i_vals f') = length (i_vals m)) by lia.
  assert (Hp' : (Z.to_nat p < length (i_vals m))%nat) by lia. clear Hp Lm Lf Lf'. revert Hz Hp'. generalize (Z.to_nat p). revert E1 E2 H.
  generalize (i_vals f) (i_vals f') (i_vals m). intros a b l. revert a b. induction l as [|z l IH]; intros [|x a] [|y b] E1 E2 H n Hz Hn; cbn in *; try lia.
  inversion H; subst. destruct n as [|n]; cbn; [f_equal; auto|]. apply (IH a b); auto; lia.
Qed.

Definition q1 (l : list Z) : img Qc := mkimg [lenZ l] (map zq l).
Definition z1 (l : list Z) : img Z := mkimg [lenZ l] l.

Lemma same_q1 : forall m l l', is_mask [3] (z1 m) -> length l = 3%nat -> length l' = 3%nat ->
  Forall2 (fun z p => z = 0 -> fst p = snd p) m (combine l l') -> same_unmasked [3] (z1 m) (q1 l) (q1 l').
Proof.
  intros m l l' Hm L L' H. apply same_by_list; auto.
  - unfold is_image, q1, lenZ. cbn [i_shape i_vals]. rewrite map_length, L. auto.
  - unfold is_image, q1, lenZ. cbn [i_shape i_vals]. rewrite map_length, L'. auto.
  - cbn [z1 q1 i_vals]. clear -H. revert l l' H. induction m as [|z m IH]; intros [|x l] [|y l'] H; cbn in *; inversion H; subst; constructor; auto. cbn. intros E. f_equal. auto.
Qed.

Lemma mask100 : is_mask [3] (z1 [1; 0; 0]).
Proof. split; [split; reflexivity|]. cbn. intros x [<-|[<-|[<-|[]]]]; auto. Qed.
Lemma mask000 : is_mask [3] (z1 [0; 0; 0]).
Proof. split; [split; reflexivity|]. cbn. intros x [<-|[<-|[<-|[]]]]; auto. Qed.
Lemma shapes3 : shapes true [3] [3].
Proof.
  split; auto. split; [cbn; lia|]. split; [constructor; [lia|constructor]|]. split; [constructor; [lia|constructor]|].
  intros _. cbn [half_fits]. split; [vm_compute; discriminate|exact I].
Qed.

(** Masked pixels seen through a periodic boundary count. *)
Lemma S2_masked_periodic : exists roi shape f g g' fm gm r e e',
  shapes true roi shape /\ is_image shape f /\ is_mask shape fm /\ same_unmasked shape gm g g' /\ pixel roi r /\
  fresh true roi true true (CallS2 f g (Some (fm, gm))) = Ok e /\
  fresh true roi true true (CallS2 f g' (Some (fm, gm))) = Ok e' /\ first_at e r <> first_at e' r.
Proof.
  exists [3], [3], (q1 [1;1;1]), (q1 [5;0;0]), (q1 [7;0;0]), (z1 [0;0;0]), (z1 [1;0;0]), 2.
  destruct (differ (fresh true [3] true true (CallS2 (q1 [1;1;1]) (q1 [5;0;0]) (Some (z1 [0;0;0], z1 [1;0;0]))))
                   (fresh true [3] true true (CallS2 (q1 [1;1;1]) (q1 [7;0;0]) (Some (z1 [0;0;0], z1 [1;0;0])))) 2 5%Q 7%Q) as (e & e' & E & E' & N);
    [vm_compute; reflexivity..|].
  exists e, e'. split; [exact shapes3|]. split; [split; reflexivity|]. split; [exact mask000|].
  split; [apply same_q1; [exact mask100|reflexivity|reflexivity|repeat constructor; cbn; intros; try reflexivity; discriminate]|].
  split; [unfold pixel; cbn; lia|]. auto.
Qed.

Lemma C2_masked_periodic : exists roi shape f g g' fm gm r e e',
  shapes true roi shape /\ is_image shape f /\ is_mask shape fm /\ same_unmasked shape gm g g' /\ pixel roi r /\
  fresh true roi true true (CallC2 f g (Some (fm, gm))) = Ok e /\
  fresh true roi true true (CallC2 f g' (Some (fm, gm))) = Ok e' /\ first_at e r <> first_at e' r.
Proof.
  exists [3], [3], (z1 [1;1;1]), (z1 [1;0;0]), (z1 [0;0;0]), (z1 [0;0;0]), (z1 [1;0;0]), 2.
  destruct (differ (fresh true [3] true true (CallC2 (z1 [1;1;1]) (z1 [1;0;0]) (Some (z1 [0;0;0], z1 [1;0;0]))))
                   (fresh true [3] true true (CallC2 (z1 [1;1;1]) (z1 [0;0;0]) (Some (z1 [0;0;0], z1 [1;0;0])))) 2 1%Q 0%Q) as (e & e' & E & E' & N);
    [vm_compute; reflexivity..|].
  exists e, e'. split; [exact shapes3|]. split; [split; reflexivity|]. split; [exact mask000|].
  split; [apply same_by_list; [split; reflexivity|split; reflexivity|exact mask100|repeat constructor; cbn; intros; try reflexivity; discriminate]|].
  split; [unfold pixel; cbn; lia|]. auto.
Qed.

Lemma W2_masked_periodic : exists roi shape w f f' fm r e e',
  shapes true roi shape /\ is_image shape w /\ same_unmasked shape fm f f' /\ pixel roi r /\
  fresh true roi true true (CallW2 w f (Some fm)) = Ok e /\
  fresh true roi true true (CallW2 w f' (Some fm)) = Ok e' /\ first_at e r <> first_at e' r.
Proof.
  exists [3], [3], (q1 [1;1;1]), (q1 [5;0;0]), (q1 [7;0;0]), (z1 [1;0;0]), 2.
  destruct (differ (fresh true [3] true true (CallW2 (q1 [1;1;1]) (q1 [5;0;0]) (Some (z1 [1;0;0]))))
                   (fresh true [3] true true (CallW2 (q1 [1;1;1]) (q1 [7;0;0]) (Some (z1 [1;0;0])))) 2 5%Q 7%Q) as (e & e' & E & E' & N);
    [vm_compute; reflexivity..|].
  exists e, e'. split; [exact shapes3|]. split; [split; reflexivity|].
  split; [apply same_q1; [exact mask100|reflexivity|reflexivity|repeat constructor; cbn; intros; try reflexivity; discriminate]|].
  split; [unfold pixel; cbn; lia|]. auto.
Qed.

Lemma hh_masked_periodic : exists roi shape f f' fm r e e',
  shapes true roi shape /\ same_unmasked shape fm f f' /\ pixel roi r /\
  fresh true roi true true (CallHH f (Some fm)) = Ok e /\
  fresh true roi true true (CallHH f' (Some fm)) = Ok e' /\ first_at e r <> first_at e' r.
Proof.
  exists [3], [3], (q1 [5;0;0]), (q1 [7;0;0]), (z1 [1;0;0]), 2.
  destruct (differ (fresh true [3] true true (CallHH (q1 [5;0;0]) (Some (z1 [1;0;0]))))
                   (fresh true [3] true true (CallHH (q1 [7;0;0]) (Some (z1 [1;0;0])))) 2 25%Q 49%Q) as (e & e' & E & E' & N);
    [vm_compute; reflexivity..|].
  exists e, e'. split; [exact shapes3|].
  split; [apply same_q1; [exact mask100|reflexivity|reflexivity|repeat constructor; cbn; intros; try reflexivity; discriminate]|].
  split; [unfold pixel; cbn; lia|]. auto.
Qed.

(** ** Lineal path function and collapsed correlation *)

Lemma first_nonzero : forall x r a, first_of x r = Some a -> Qeq_bool a 0 = false -> exists e, x = Ok e /\ first_at e r <> 0%Qc.
Proof.
  intros [e| | |] r a H N; try discriminate. cbn in H. inversion H; subst. exists e. split; auto. intros E. rewrite E in N. discriminate.
Qed.

(** A region of interest of one pixel has no border, hence no paths: the result is zero. *)
Lemma L_unit_roi : exists roi shape f e, shapes false roi shape /\ is_image shape f /\ walkable Bresenham roi /\
  fresh true roi false true (CallL f Bresenham) = Ok e /\ pixel roi 0 /\ zero_offset (offset roi 0) /\
  result_at e 0 <> Exact (phase_fraction shape (i_vals f)).
Proof.
  exists [1], [2], (z1 [1; 1]).
  assert (H : match fresh true [1] false true (CallL (z1 [1; 1]) Bresenham) with Ok e => shown (result_at e 0) = Some 0%Q | _ => False end) by (vm_compute; reflexivity).
  destruct (fresh true [1] false true (CallL (z1 [1; 1]) Bresenham)) as [e| | |]; try contradiction. exists e.
  split. { split; auto. split; [cbn; lia|]. split; [constructor; [lia|constructor]|]. split; [constructor; [lia|constructor]|discriminate]. }
  split; [split; reflexivity|]. split; [constructor; [lia|constructor]|]. split; auto. split; [unfold pixel; cbn; lia|]. split; [intros t [<-|[]]; reflexivity|].
  intros E. rewrite E in H. cbn [shown] in H. vm_compute in H. discriminate.
Qed.

(** The border of an axis of length two contains the centre: no path to it in the other modes. *)
Lemma L_axis_two : exists roi shape f, shapes false roi shape /\ is_image shape f /\
  fresh true roi false true (CallL f actual) = UB /\ fresh true roi false true (CallL f full) = UB.
Proof.
  exists [2], [2], (z1 [1; 1]). split. { split; auto. split; [cbn; lia|]. split; [constructor; [lia|constructor]|]. split; [constructor; [lia|constructor]|discriminate]. }
  split; [split; reflexivity|]. split; vm_compute; reflexivity.
Qed.

(** One cluster around its centre; the image is zero outside it; still something is counted. *)
Lemma W2c_inside_counts : exists roi shape clusters centers f e r,
  shapes false roi shape /\ is_image shape clusters /\ is_image shape centers /\ is_image shape f /\
  (forall p, pixel shape p -> zn (i_vals clusters) p = 0 \/ zn (i_vals clusters) p = 1) /\
  (forall p, pixel shape p -> zn (i_vals clusters) p = 0 -> qn (i_vals f) p = 0%Qc) /\
  fresh true roi false true (CallW2c clusters centers f None Bresenham) = Ok e /\ pixel roi r /\ first_at e r <> 0%Qc.
Proof.
  exists [5], [8], (z1 [0;0;1;1;1;0;0;0]), (z1 [0;0;0;1;0;0;0;0]), (q1 [0;0;3;5;7;0;0;0]).
  destruct (first_nonzero (fresh true [5] false true (CallW2c (z1 [0;0;1;1;1;0;0;0]) (z1 [0;0;0;1;0;0;0;0]) (q1 [0;0;3;5;7;0;0;0]) None Bresenham)) 2 10%Q) as (e & E & N);
    [vm_compute; reflexivity|reflexivity|].
  exists e, 2.
  split. { split; auto. split; [cbn; lia|]. split; [constructor; [lia|constructor]|]. split; [constructor; [lia|constructor]|discriminate]. }
  split; [split; reflexivity|]. split; [split; reflexivity|]. split; [split; reflexivity|].
  assert (C : forall p, pixel [8] p -> p = 0 \/ p = 1 \/ p = 2 \/ p = 3 \/ p = 4 \/ p = 5 \/ p = 6 \/ p = 7) by (intros p Hp; unfold pixel in Hp; cbn in Hp; lia).
  split. { intros p Hp. destruct (C p Hp) as [->|[->|[->|[->|[->|[->|[->| ->]]]]]]]; cbn; auto. }
  split. { intros p Hp. destruct (C p Hp) as [->|[->|[->|[->|[->|[->|[->| ->]]]]]]]; intros H; first [discriminate H | exact zq_0]. }
  split; auto. split; [unfold pixel; cbn; lia|auto].
Qed.

(** The third index of the target uses the padding of the second axis. *)
Lemma W2c_outside : exists roi shape clusters centers f,
  shapes false roi shape /\ is_image shape clusters /\ is_image shape centers /\ is_image shape f /\ walkable Bresenham roi /\
  fresh true roi false true (CallW2c clusters centers f None Bresenham) = UB.
Proof.
  exists [1;1;5], [1;1;5], (mkimg [1;1;5] [1;1;1;1;1]), (mkimg [1;1;5] [0;0;1;0;0]), (mkimg [1;1;5] (map zq [1;2;3;4;5])).
  split. { split; auto. split; [cbn; lia|]. split; [repeat (constructor; [lia|]); constructor|]. split; [repeat (constructor; [lia|]); constructor|discriminate]. }
  split; [split; reflexivity|]. split; [split; reflexivity|]. split; [split; reflexivity|]. split; [repeat (constructor; [lia|]); constructor|]. vm_compute. reflexivity.
Qed.

(** ... or, when the write stays inside, the count is made at another offset. *)
Lemma W2c_misplaced : exists roi shape clusters centers f e,
  shapes false roi shape /\ is_image shape clusters /\ is_image shape centers /\ is_image shape f /\ walkable Bresenham roi /\
  fresh true roi false true (CallW2c clusters centers f None Bresenham) = Ok e /\
  zero_offset (offset roi 7) /\ (exists p, cluster_centre (i_vals clusters) (i_vals centers) p = true) /\
  (norm_at e 7 < norm_at e 6)%Qc.
Proof.
  exists [1;3;5], [1;1;5], (mkimg [1;1;5] [1;1;1;1;1]), (mkimg [1;1;5] [0;0;1;0;0]), (mkimg [1;1;5] (map zq [1;2;3;4;5])).
  assert (H : match fresh true [1;3;5] false true (CallW2c (mkimg [1;1;5] [1;1;1;1;1]) (mkimg [1;1;5] [0;0;1;0;0]) (mkimg [1;1;5] (map zq [1;2;3;4;5])) None Bresenham) with
              | Ok e => (this (norm_at e 7), this (norm_at e 6)) = (1%Q, 12%Q) | _ => False end) by (vm_compute; reflexivity).
  destruct (fresh true [1;3;5] false true _) as [e| | |]; try contradiction. exists e. inversion H as [[H7 H6]].
  split. { split; auto. split; [cbn; lia|]. split; [repeat (constructor; [lia|]); constructor|]. split; [repeat (constructor; [lia|]); constructor|discriminate]. }
  split; [split; reflexivity|]. split; [split; reflexivity|]. split; [split; reflexivity|]. split; [repeat (constructor; [lia|]); constructor|]. split; auto.
  split; [intros t [<-|[<-|[<-|[]]]]; reflexivity|]. split; [exists 2; reflexivity|]. unfold Qclt. rewrite H7, H6. reflexivity.
Qed.
