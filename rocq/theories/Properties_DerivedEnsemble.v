(** * Properties_DerivedEnsemble: C69

    How the two-point statistics behave on pairs of related images.  Statements only. *)

From Coq Require Import ZArith QArith Qcanon List Bool Lia.
From Verif Require Import Base SpecCluster SpecDilate Ensemble SpecEnsemble SpecSymmetry SpecMoved DerivedEnsemble.
Import ListNotations.
Open Scope Z_scope.

(** ** C69 Rolling, flipping and transposing the images

    [carried_call T shape shape' c c']: call [c'] is [S2], [C2], [W2] or [heightheight] like
    [c], with every image (and mask) moved by [T]. *)
Theorem C69_rolling_periodic_images :
  forall asrt var roi shape d c c', shapes true roi shape -> length d = length shape ->
  carried_call (rolls d shape) shape shape c c' -> no_mask c ->
  same_data (fresh asrt roi true var c) (fresh asrt roi true var c').
Proof. exact roll_call. Qed.
Print Assumptions C69_rolling_periodic_images.

Theorem C69_flipping :
  forall asrt per var roi shape which c c', shapes per roi shape -> length which = length shape ->
  carried_call (flips which shape) shape shape c c' ->
  exists e e', fresh asrt roi per var c = Ok e /\ fresh asrt roi per var c' = Ok e' /\
    forall r r', pixel roi r -> pixel roi r' -> offset roi r' = flipped_offset which (offset roi r) -> same_at e r e' r'.
Proof. exact flip_call. Qed.
Print Assumptions C69_flipping.

Theorem C69_transposing :
  forall asrt per var roi shape c c', shapes per roi shape ->
  carried_call (transposes shape) shape (rev shape) c c' ->
  exists e e', fresh asrt roi per var c = Ok e /\ fresh asrt (rev roi) per var c' = Ok e' /\
    forall r r', pixel roi r -> pixel (rev roi) r' -> offset (rev roi) r' = rev (offset roi r) -> same_at e r e' r'.
Proof. exact transpose_call. Qed.
Print Assumptions C69_transposing.

Definition C69_image : img Qc := mkimg [2; 3] (map zq [1;2;3; 4;5;6]).
Definition C69_rolled : img Qc := mkimg [2; 3] (map zq [3;1;2; 6;4;5]).
Definition C69_flipped : img Qc := mkimg [2; 3] (map zq [4;5;6; 1;2;3]).
Definition C69_transposed : img Qc := mkimg [3; 2] (map zq [1;4; 2;5; 3;6]).
Definition C69_mask : img Z := mkimg [2; 3] [0;0;1; 0;0;0].
Definition C69_flipped_mask : img Z := mkimg [2; 3] [0;0;0; 0;0;1].

(** The images above are related as the theorems ask, and the statistics are not trivial. *)
Example C69_case :
  shapes true [1; 3] [2; 3] /\
  carried_call (rolls [0; 1] [2; 3]) [2; 3] [2; 3] (CallHH C69_image None) (CallHH C69_rolled None) /\
  carried_call (flips [true; false] [2; 3]) [2; 3] [2; 3] (CallHH C69_image (Some C69_mask)) (CallHH C69_flipped (Some C69_flipped_mask)) /\
  carried_call (transposes [2; 3]) [2; 3] [3; 2] (CallS2 C69_image C69_image None) (CallS2 C69_transposed C69_transposed None) /\
  (exists e, fresh true [1; 3] true true (CallHH C69_image None) = Ok e /\ data_first e = map zq [12; 0; 12]) /\
  (exists e, fresh true [1; 3] true true (CallHH C69_rolled None) = Ok e /\ data_first e = map zq [12; 0; 12]) /\
  (exists e, fresh true [1; 3] false true (CallS2 C69_image C69_image None) = Ok e /\ data_first e = map zq [58; 91; 58]) /\
  (exists e, fresh true [3; 1] false true (CallS2 C69_transposed C69_transposed None) = Ok e /\ data_first e = map zq [58; 91; 58]).
Proof.
  assert (D : forall p, pixel [2; 3] p -> p = 0 \/ p = 1 \/ p = 2 \/ p = 3 \/ p = 4 \/ p = 5)
    by (intros p Hp; unfold pixel in Hp; cbn in Hp; lia).
  assert (D' : forall p, pixel [3; 2] p -> p = 0 \/ p = 1 \/ p = 2 \/ p = 3 \/ p = 4 \/ p = 5)
    by (intros p Hp; unfold pixel in Hp; cbn in Hp; lia).
  assert (M : forall v, length v = 6%nat -> (forall x, In x v -> x = 0 \/ x = 1) -> is_mask [2; 3] (mkimg [2; 3] v)).
  { intros v HL HV. split; [split; [reflexivity|unfold lenZ; cbn [i_vals]; rewrite HL; reflexivity]|exact HV]. }
  split.
  { unfold shapes. split; [reflexivity|]. split; [cbn; lia|]. split; [repeat constructor; lia|]. split; [repeat constructor; lia|].
    intros _. vm_compute. intuition discriminate. }
  split.
  { split; [|exact I]. split; [split; reflexivity|]. split; [split; reflexivity|].
    intros p q (Hp & Hq & HM). apply D in Hp. apply D in Hq.
    decompose [or] Hp; decompose [or] Hq; subst; vm_compute in HM; first [reflexivity|exfalso; intuition discriminate]. }
  split.
  { split.
    - split; [split; reflexivity|]. split; [split; reflexivity|].
      intros p q (Hp & Hq & HM). apply D in Hp. apply D in Hq.
      decompose [or] Hp; decompose [or] Hq; subst; vm_compute in HM; first [reflexivity|exfalso; intuition discriminate].
    - cbn [carried_option]. split; [apply M; [reflexivity|simpl; intros; lia]|]. split; [apply M; [reflexivity|simpl; intros; lia]|].
      intros p q (Hp & Hq & HM). apply D in Hp. apply D in Hq.
      decompose [or] Hp; decompose [or] Hq; subst; vm_compute in HM; first [reflexivity|exfalso; intuition discriminate]. }
  split.
  { assert (X : carried_image (transposes [2; 3]) [2; 3] [3; 2] C69_image C69_transposed).
    { split; [split; reflexivity|]. split; [split; reflexivity|].
      intros p q (Hp & Hq & HM). apply D in Hp. apply D' in Hq.
      decompose [or] Hp; decompose [or] Hq; subst; cbn in HM |- *; first [discriminate HM|reflexivity]. }
    split; [exact X|]. split; [exact X|exact I]. }
  repeat split; eexists; (split; [vm_compute; reflexivity|vm_compute; reflexivity]).
Qed.
