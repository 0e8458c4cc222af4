(** * LinealMovedCase: examples and witnesses of C115 (proofs only) *)

From Coq Require Import ZArith QArith Qcanon List Bool Lia.
From Verif Require Import Base BaseLemmas SpecCluster Path Ensemble SpecEnsemble SpecSymmetry SpecMoved SpecLinealMoved.
Import ListNotations.
Open Scope Z_scope.

Definition W_cl := mkimg [3; 4] [1;1;0;0; 0;0;0;2; 0;0;0;0].
Definition W_ce := mkimg [3; 4] [0;1;0;0; 0;0;0;2; 0;0;0;0].
Definition W_f := mkimg [3; 4] (map zq [2;3;5;7; 11;13;17;19; 23;29;31;37]).
Definition W_m := mkimg [3; 4] [0;0;0;0; 0;0;1;0; 0;0;0;1].
Definition F_cl := mkimg [3; 4] [0;0;1;1; 2;0;0;0; 0;0;0;0].
Definition F_ce := mkimg [3; 4] [0;0;1;0; 2;0;0;0; 0;0;0;0].
Definition F_f := mkimg [3; 4] (map zq [7;5;3;2; 19;17;13;11; 37;31;29;23]).
Definition F_m := mkimg [3; 4] [0;0;0;0; 0;1;0;0; 1;0;0;0].
Definition T_cl := mkimg [4; 3] [1;0;0; 1;0;0; 0;0;0; 0;2;0].
Definition T_ce := mkimg [4; 3] [0;0;0; 1;0;0; 0;0;0; 0;2;0].
Definition T_f := mkimg [4; 3] (map zq [2;11;23; 3;13;29; 5;17;31; 7;19;37]).
Definition T_m := mkimg [4; 3] [0;0;0; 0;0;0; 0;1;0; 0;0;1].

(** Every pixel, by computation. *)
Lemma pixels_all : forall shape (P : Z -> bool), forallb P (zrange 0 (zprod shape)) = true -> forall p, pixel shape p -> P p = true.
Proof. intros shape P H p Hp. rewrite forallb_forall in H. apply H. apply zrange_In. exact Hp. Qed.

Definition same_entry (a b : list Z) (p q : Z) : bool :=
  match nth_error b (Z.to_nat q), nth_error a (Z.to_nat p) with Some x, Some y => x =? y | None, None => true | _, _ => false end.
Lemma same_entry_eq : forall a b p q, same_entry a b p q = true -> nth_error b (Z.to_nat q) = nth_error a (Z.to_nat p).
Proof. intros a b p q. unfold same_entry. destruct (nth_error b _), (nth_error a _); try discriminate; auto. intros E. apply Z.eqb_eq in E. congruence. Qed.

Fixpoint flippedb (which : list bool) (shape a b : list Z) : bool :=
  match which, shape, a, b with
  | [], [], [], [] => true
  | w :: which', n :: shape', x :: a', y :: b' => (y =? (if w then n - 1 - x else x)) && flippedb which' shape' a' b'
  | _, _, _, _ => false
  end.
Lemma flippedb_true : forall which shape a b, flipped which shape a b -> flippedb which shape a b = true.
Proof.
  induction which as [|w which IH]; intros [|n shape] [|x a] [|y b] H; cbn in H |- *; try tauto. destruct H as [-> H]. rewrite Z.eqb_refl, IH; auto.
Qed.

Lemma flips_check : forall which shape a b,
  forallb (fun p => forallb (fun q => implb (flippedb which shape (coords shape p) (coords shape q)) (same_entry a b p q)) (zrange 0 (zprod shape))) (zrange 0 (zprod shape)) = true ->
  carried (flips which shape) a b.
Proof.
  intros which shape a b H p q (Hp & Hq & F). apply same_entry_eq. pose proof (pixels_all _ _ H p Hp) as H1. pose proof (pixels_all _ _ H1 q Hq) as H2. cbn beta in H2.
  rewrite (flippedb_true _ _ _ _ F) in H2. exact H2.
Qed.

Lemma transposes_check : forall shape a b,
  forallb (fun p => forallb (fun q => implb (if list_eq_dec Z.eq_dec (coords (rev shape) q) (rev (coords shape p)) then true else false) (same_entry a b p q)) (zrange 0 (zprod (rev shape)))) (zrange 0 (zprod shape)) = true ->
  carried (transposes shape) a b.
Proof.
  intros shape a b H p q (Hp & Hq & F). apply same_entry_eq. pose proof (pixels_all _ _ H p Hp) as H1. pose proof (pixels_all _ _ H1 q Hq) as H2. cbn beta in H2.
  destruct (list_eq_dec _ _ _); [exact H2|contradiction].
Qed.

Fixpoint rolledb (shape a d b : list Z) : bool :=
  match shape, a, d, b with
  | [], [], [], [] => true
  | n :: shape', x :: a', t :: d', y :: b' => (y =? (x + t) mod n) && rolledb shape' a' d' b'
  | _, _, _, _ => false
  end.
Lemma rolledb_true : forall shape a d b, moved true shape a d b -> rolledb shape a d b = true.
Proof.
  induction shape as [|n shape IH]; intros [|x a] [|t d] [|y b] H; cbn in H |- *; try tauto. destruct H as [-> H]. rewrite Z.eqb_refl, IH; auto.
Qed.
Lemma rolls_check : forall d shape a b,
  forallb (fun p => forallb (fun q => implb (rolledb shape (coords shape p) d (coords shape q)) (same_entry a b p q)) (zrange 0 (zprod shape))) (zrange 0 (zprod shape)) = true ->
  carried (rolls d shape) a b.
Proof.
  intros d shape a b H p q (Hp & Hq & F). apply same_entry_eq. pose proof (pixels_all _ _ H p Hp) as H1. pose proof (pixels_all _ _ H1 q Hq) as H2. cbn beta in H2.
  rewrite (rolledb_true _ _ _ _ F) in H2. exact H2.
Qed.

Lemma carried_map : forall {A B} (g : A -> B) T a b, carried T a b -> carried T (map g a) (map g b).
Proof. intros A B g T a b H p q HT. rewrite !nth_error_map, (H p q HT). reflexivity. Qed.

Ltac is_im := split; [reflexivity|vm_compute; reflexivity].
Ltac is_ma := split; [is_im|cbn; intuition auto].
Ltac fits := split; [reflexivity|split; [cbn; lia|split; [repeat (apply Forall_cons; [lia|]); apply Forall_nil|split; [repeat (apply Forall_cons; [lia|]); apply Forall_nil|cbn; intros; try discriminate; repeat split; vm_compute; discriminate]]]].

Lemma flips_case : carried_walk (flips [false; true] [3; 4]) [3; 4] [3; 4] (CallW2c W_cl W_ce W_f (Some W_m) full) (CallW2c F_cl F_ce F_f (Some F_m) full).
Proof.
  split; [|split; [|split; [|split; [|reflexivity]]]].
  - split; [is_im|split; [is_im|apply flips_check; vm_compute; reflexivity]].
  - split; [is_im|split; [is_im|apply flips_check; vm_compute; reflexivity]].
  - split; [is_im|split; [is_im|apply carried_map; apply flips_check; vm_compute; reflexivity]].
  - split; [is_ma|split; [is_ma|apply flips_check; vm_compute; reflexivity]].
Qed.

Lemma transposes_case : carried_walk (transposes [3; 4]) [3; 4] [4; 3] (CallW2c W_cl W_ce W_f (Some W_m) Bresenham) (CallW2c T_cl T_ce T_f (Some T_m) Bresenham).
Proof.
  split; [|split; [|split; [|split; [|reflexivity]]]].
  - split; [is_im|split; [is_im|apply transposes_check; vm_compute; reflexivity]].
  - split; [is_im|split; [is_im|apply transposes_check; vm_compute; reflexivity]].
  - split; [is_im|split; [is_im|apply carried_map; apply transposes_check; vm_compute; reflexivity]].
  - split; [is_ma|split; [is_ma|apply transposes_check; vm_compute; reflexivity]].
Qed.

Definition R_f := mkimg [5] [1; 1; 0; 1; 0].
Definition R_rolled := mkimg [5] [1; 0; 1; 1; 0].
Lemma rolls_case : carried_walk (rolls [2] [5]) [5] [5] (CallL R_f Bresenham) (CallL R_rolled Bresenham).
Proof. split; [|reflexivity]. split; [is_im|split; [is_im|apply rolls_check; vm_compute; reflexivity]]. Qed.

Lemma moved_case :
  (shapes false [5; 3] [3; 4] /\ odd_along [false; true] [5; 3] /\ walks_in [5; 3] (CallW2c W_cl W_ce W_f (Some W_m) full) /\
   carried_walk (flips [false; true] [3; 4]) [3; 4] [3; 4] (CallW2c W_cl W_ce W_f (Some W_m) full) (CallW2c F_cl F_ce F_f (Some F_m) full) /\
   (exists e, fresh true [5; 3] false true (CallW2c W_cl W_ce W_f (Some W_m) full) = Ok e /\ data_first e = map zq [0;0;0; 0;10;0; 0;107;0; 23;113;31; 0;0;0]) /\
   exists e, fresh true [5; 3] false true (CallW2c F_cl F_ce F_f (Some F_m) full) = Ok e /\ data_first e = map zq [0;0;0; 0;10;0; 0;107;0; 31;113;23; 0;0;0]) /\
  (walks_in [5; 3] (CallW2c W_cl W_ce W_f (Some W_m) Bresenham) /\ walks_in [3; 5] (CallW2c W_cl W_ce W_f (Some W_m) Bresenham) /\
   carried_walk (transposes [3; 4]) [3; 4] [4; 3] (CallW2c W_cl W_ce W_f (Some W_m) Bresenham) (CallW2c T_cl T_ce T_f (Some T_m) Bresenham) /\
   (exists e, fresh true [5; 3] false true (CallW2c W_cl W_ce W_f (Some W_m) Bresenham) = Ok e /\ data_first e = map zq [0;0;0; 0;0;0; 0;121;0; 23;29;31; 0;0;0]) /\
   exists e, fresh true [3; 5] false true (CallW2c T_cl T_ce T_f (Some T_m) Bresenham) = Ok e /\ data_first e = map zq [0;0;0;23;0; 0;0;121;29;0; 0;0;0;31;0]) /\
  (shapes true [5] [5] /\ walks_in [5] (CallL R_f Bresenham) /\ carried_walk (rolls [2] [5]) [5] [5] (CallL R_f Bresenham) (CallL R_rolled Bresenham) /\
   (exists e, fresh true [5] true true (CallL R_f Bresenham) = Ok e /\ data_first e = map zq [0; 1; 6; 1; 0]) /\
   exists e, fresh true [5] true true (CallL R_rolled Bresenham) = Ok e /\ data_first e = map zq [0; 1; 6; 1; 0]).
Proof.
  assert (W : forall mode roi, walkable mode roi -> even_sided roi -> walks_in roi (CallW2c W_cl W_ce W_f (Some W_m) mode)) by (intros; split; auto).
  split; [|split].
  - split; [fits|]. split; [cbn; intuition|]. split; [apply W; [repeat (apply Forall_cons; [lia|]); apply Forall_nil|exact I]|]. split; [exact flips_case|].
    split; eexists; (split; [vm_compute; reflexivity|vm_compute; reflexivity]).
  - split; [apply W; [repeat (apply Forall_cons; [lia|]); apply Forall_nil|exact I]|]. split; [apply W; [repeat (apply Forall_cons; [lia|]); apply Forall_nil|exact I]|]. split; [exact transposes_case|].
    split; eexists; (split; [vm_compute; reflexivity|vm_compute; reflexivity]).
  - split; [fits|]. split; [repeat (apply Forall_cons; [lia|]); apply Forall_nil|]. split; [exact rolls_case|].
    split; eexists; (split; [vm_compute; reflexivity|vm_compute; reflexivity]).
Qed.

(** ** Witnesses *)

Definition E_f := mkimg [4; 6] [0;0;0;0;0;0; 0;0;1;0;0;0; 0;1;1;0;0;0; 1;1;0;0;0;0].
Definition E_g := mkimg [4; 6] [1;1;0;0;0;0; 0;1;1;0;0;0; 0;0;1;0;0;0; 0;0;0;0;0;0].

(** A region of interest of even size. *)
Lemma flip_even : exists roi shape which c c' e e' r r', shapes true roi shape /\ length which = length shape /\
  carried_walk (flips which shape) shape shape c c' /\ goes_by full c /\ walks_in roi c /\
  fresh true roi true true c = Ok e /\ fresh true roi true true c' = Ok e' /\ pixel roi r /\ pixel roi r' /\
  offset roi r' = flipped_offset which (offset roi r) /\ result_at e r = Exact (1 / zq 16)%Qc /\ result_at e' r' = Exact (1 / zq 18)%Qc.
Proof.
  exists [4; 4], [4; 6], [true; false], (CallL E_f full), (CallL E_g full). do 2 eexists. exists 2, 10.
  split; [fits|]. split; [reflexivity|]. split; [split; [|reflexivity]; split; [is_im|split; [is_im|apply flips_check; vm_compute; reflexivity]]|].
  split; [reflexivity|]. split; [repeat (apply Forall_cons; [lia|]); apply Forall_nil|]. split; [vm_compute; reflexivity|]. split; [vm_compute; reflexivity|].
  split; [unfold pixel; cbn; lia|]. split; [unfold pixel; cbn; lia|]. split; [vm_compute; reflexivity|]. split; vm_compute; apply f_equal; apply Qc_is_canon; vm_compute; reflexivity.
Qed.

(** [full] goes along the first axis first. *)
Definition B_f := mkimg [2; 2] [1;1; 0;1].
Definition B_g := mkimg [2; 2] [1;0; 1;1].
Lemma transpose_full : exists roi shape c c' e e' r r', shapes false roi shape /\
  carried_walk (transposes shape) shape (rev shape) c c' /\ goes_by full c /\ walks_in roi c /\ walks_in (rev roi) c /\
  fresh true roi false true c = Ok e /\ fresh true (rev roi) false true c' = Ok e' /\ pixel roi r /\ pixel (rev roi) r' /\
  offset (rev roi) r' = rev (offset roi r) /\ result_at e r = Exact 0%Qc /\ result_at e' r' = Exact (1 / zq 4)%Qc.
Proof.
  exists [3; 3], [2; 2], (CallL B_f full), (CallL B_g full). do 2 eexists. exists 8, 8.
  split; [fits|]. split; [split; [|reflexivity]; split; [is_im|split; [is_im|apply transposes_check; vm_compute; reflexivity]]|].
  split; [reflexivity|]. split; [repeat (apply Forall_cons; [lia|]); apply Forall_nil|]. split; [repeat (apply Forall_cons; [lia|]); apply Forall_nil|].
  split; [vm_compute; reflexivity|]. split; [vm_compute; reflexivity|].
  split; [unfold pixel; cbn; lia|]. split; [unfold pixel; cbn; lia|]. split; [vm_compute; reflexivity|]. split; vm_compute; apply f_equal; apply Qc_is_canon; vm_compute; reflexivity.
Qed.

Lemma rolled_case : ~ even_sided [1; 3; 5] /\ shapes true [1; 3; 5] [1; 1; 5] /\ walkable Bresenham [1; 3; 5] /\
  carried_walk (rolls [0; 0; 2] [1; 1; 5]) [1; 1; 5] [1; 1; 5]
    (CallW2c (mkimg [1; 1; 5] [1;1;1;1;1]) (mkimg [1; 1; 5] [0;0;1;0;0]) (mkimg [1; 1; 5] (map zq [1;2;3;4;5])) None Bresenham)
    (CallW2c (mkimg [1; 1; 5] [1;1;1;1;1]) (mkimg [1; 1; 5] [0;0;0;0;1]) (mkimg [1; 1; 5] (map zq [4;5;1;2;3])) None Bresenham) /\
  exists e, fresh true [1; 3; 5] true true (CallW2c (mkimg [1; 1; 5] [1;1;1;1;1]) (mkimg [1; 1; 5] [0;0;0;0;1]) (mkimg [1; 1; 5] (map zq [4;5;1;2;3])) None Bresenham) = Ok e /\
    map this (norm e) = map inject_Z [1;0;1;0;0; 1;12;1;0;0; 1;0;1;0;0].
Proof.
  split; [intros H; vm_compute in H; intuition discriminate|].
  split. { split; auto. split; [cbn; lia|]. split; [repeat (constructor; [lia|]); constructor|]. split; [repeat (constructor; [lia|]); constructor|].
    intros _. vm_compute. repeat split; discriminate. }
  split; [repeat (constructor; [lia|]); constructor|]. split.
  - split; [split; [is_im|split; [is_im|apply rolls_check; vm_compute; reflexivity]]|].
    split; [split; [is_im|split; [is_im|apply rolls_check; vm_compute; reflexivity]]|].
    split; [split; [is_im|split; [is_im|apply carried_map; apply rolls_check; vm_compute; reflexivity]]|].
    split; [exact I|reflexivity].
  - eexists. split; vm_compute; reflexivity.
Qed.
