(** * Properties_Circles: C50, C59

    [covered per n m row col r u v]: the pixel (u, v) is displaced by at most [rad - 1] from the
    centre of one of the circles, [on_grid]: a regular grid with displaced centres. *)

From Coq Require Import ZArith List Bool Lia Reals.
From Verif Require Import Base SpecCluster Circles SpecCircles CirclesProofs.
Import ListNotations.
Open Scope Z_scope.

(** ** C50 *)
Theorem C50_image_is_union_of_discs : forall asrt n m row col r per, 0 <= n -> 0 <= m ->
  (per = true -> 0 < n /\ 0 < m) -> lenZ col = lenZ row -> lenZ r = lenZ row ->
  exists out, dummy_circles asrt [n; m] row col r per = Ok out /\ lenZ out = n * m /\
    forall p, pixel [n; m] p ->
      (covered per n m row col r (p / m) (p mod m) -> zn out p = 1) /\
      (~ covered per n m row col r (p / m) (p mod m) -> zn out p = 0).
Proof. exact circles_ok. Qed.
Print Assumptions C50_image_is_union_of_discs.

Theorem C50_within_is_euclidean : forall rad a b,
  within rad a b <-> (sqrt (IZR a * IZR a + IZR b * IZR b) <= IZR rad - 1)%R.
Proof. exact within_length. Qed.
Print Assumptions C50_within_is_euclidean.

Theorem C50_bad_arguments_throw : forall shape row col r per,
  lenZ shape <> 2 \/ lenZ col <> lenZ row \/ lenZ r <> lenZ row ->
  dummy_circles true shape row col r per = Throw.
Proof. exact circles_guard. Qed.
Print Assumptions C50_bad_arguments_throw.

Example C50_case_periodic : dummy_circles true [4; 5] [0] [0] [2] true =
  Ok [1; 1; 0; 0; 1;
      1; 0; 0; 0; 0;
      0; 0; 0; 0; 0;
      1; 0; 0; 0; 0] /\ covered true 4 5 [0] [0] [2] 3 0.
Proof.
  split; [vm_compute; reflexivity|]. exists 0, 0, 0, 2, (-1), 0.
  split; [unfold circle; cbn; lia|]. split; [unfold within; lia|]. cbn. lia.
Qed.

Example C50_case_not_periodic : dummy_circles true [4; 5] [0; 3] [0; 2] [2; 3] false =
  Ok [1; 1; 0; 0; 0;
      1; 0; 1; 0; 0;
      0; 1; 1; 1; 0;
      1; 1; 1; 1; 1].
Proof. vm_compute. reflexivity. Qed.

Example C50_case_throw : dummy_circles true [4; 5] [0; 3] [0] [2] false = Throw.
Proof. vm_compute. reflexivity. Qed.

(** ** C59 *)
Theorem C59_random_circles_partial : forall asrt n m per draws, 20 <= n -> 20 <= m ->
  n / 20 * (m / 20) <= lenZ draws -> Forall (valid_draw n m) draws ->
  exists out row col r, dummy_circles_random asrt [n; m] per draws = Ok out /\
    on_grid n m row col /\ lenZ r = lenZ row /\
    (forall k, 0 <= k < lenZ r -> 0 <= zn r k /\
       (IZR (zn r k) <= 2 * sqrt (3 / 10 * IZR (n * m) / (PI * IZR (n / 20 * (m / 20)))))%R) /\
    dummy_circles asrt [n; m] row col r per = Ok out.
Proof. exact random_ok. Qed.
Print Assumptions C59_random_circles_partial.

Example C59_case : exists out, dummy_circles_random true [20; 40] true [mkdraw 0 0 0; mkdraw 19 3 (1 / 2)] = Ok out.
Proof. exact random_case. Qed.

Theorem C59_random_circles_small_image_refuted : exists n m, 0 < n /\ 0 < m /\
  forall per draws, dummy_circles_random true [n; m] per draws = UB.
Proof. exact random_refuted. Qed.
Print Assumptions C59_random_circles_small_image_refuted.
