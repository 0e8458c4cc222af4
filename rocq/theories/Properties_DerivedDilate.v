(** * Properties_DerivedDilate: C68

    How [dilate] with one number of iterations behaves on related calls.  Statements only. *)

From Coq Require Import ZArith List Bool Lia.
From Verif Require Import Base SpecCluster SpecSymmetry Array3 Dilate SpecDilate DerivedDilate.
Import ListNotations.
Open Scope Z_scope.

(** ** C68 Dilating is a growing process *)
Theorem C68_no_iterations_change_nothing :
  forall asrt shape f ks kv per, dilatable_n per shape f ks kv -> dilate_n asrt shape f ks kv 0 per = Ok f.
Proof. exact dilate_zero. Qed.
Print Assumptions C68_no_iterations_change_nothing.

(** [n] iterations followed by [m] more give the foreground of [n + m] iterations. *)
Theorem C68_iterations_add_up :
  forall asrt shape f ks kv n m per, dilatable_n per shape f ks kv -> 0 <= n -> 0 <= m ->
  exists a b c, dilate_n asrt shape f ks kv n per = Ok a /\ dilate_n asrt shape a ks kv m per = Ok b /\
    dilate_n asrt shape f ks kv (n + m) per = Ok c /\
    forall p, pixel shape p -> (zn b p <> 0 <-> zn c p <> 0).
Proof. exact dilate_compose. Qed.
Print Assumptions C68_iterations_add_up.

(** More foreground and more iterations never give less foreground. *)
Theorem C68_monotone :
  forall asrt shape f f' ks kv n m per, dilatable_n per shape f ks kv -> dilatable_n per shape f' ks kv ->
  0 <= n <= m -> (forall p, pixel shape p -> zn f p <> 0 -> zn f' p <> 0) ->
  exists a b, dilate_n asrt shape f ks kv n per = Ok a /\ dilate_n asrt shape f' ks kv m per = Ok b /\
    forall p, pixel shape p -> zn a p <> 0 -> zn b p <> 0.
Proof. exact dilate_mono. Qed.
Print Assumptions C68_monotone.

(** Neither does making the box periodic. *)
Theorem C68_periodic_dilates_more :
  forall asrt shape f ks kv n, dilatable_n true shape f ks kv -> 0 <= n ->
  exists a b, dilate_n asrt shape f ks kv n false = Ok a /\ dilate_n asrt shape f ks kv n true = Ok b /\
    forall p, pixel shape p -> zn a p <> 0 -> zn b p <> 0.
Proof. exact dilate_periodic_more. Qed.
Print Assumptions C68_periodic_dilates_more.

(** Rolling a periodic image rolls the dilated foreground with it. *)
Theorem C68_rolling_a_periodic_image :
  forall asrt shape f f' ks kv n d, dilatable_n true shape f ks kv -> dilatable_n true shape f' ks kv ->
  length d = length shape -> 0 <= n -> carried (rolls d shape) f f' ->
  exists a b, dilate_n asrt shape f ks kv n true = Ok a /\ dilate_n asrt shape f' ks kv n true = Ok b /\
    forall p p', rolls d shape p p' -> (zn a p <> 0 <-> zn b p' <> 0).
Proof. exact dilate_roll. Qed.
Print Assumptions C68_rolling_a_periodic_image.

(** In rank 3 the default kernel dilates along faces and edges. *)
Theorem C68_default_kernel_in_three_dimensions :
  forall asrt shape f n per, length shape = 3%nat -> image shape f ->
  (forall l, In l f -> 0 <= l < 2 ^ 62) -> 0 <= n ->
  exists ret, dilate_default_n asrt shape f n per = Ok ret /\ lenZ ret = lenZ f /\
  forall p, pixel shape p -> (zn ret p <> 0 <->
    reaches (face_or_edge per shape) (fun x => pixel shape x /\ zn f x <> 0) n p).
Proof. exact dilate_default3. Qed.
Print Assumptions C68_default_kernel_in_three_dimensions.

Example C68_case :
  dilatable_n true [5] [0;0;0;7;0] [3] [1;1;1] /\ dilatable_n true [5] [0;0;0;0;7] [3] [1;1;1] /\
  carried (rolls [1] [5]) [0;0;0;7;0] [0;0;0;0;7] /\
  dilate_n true [5] [0;0;0;7;0] [3] [1;1;1] 0 true = Ok [0;0;0;7;0] /\
  dilate_n true [5] [0;0;0;7;0] [3] [1;1;1] 1 true = Ok [0;0;7;7;7] /\
  dilate_n true [5] [0;0;7;7;7] [3] [1;1;1] 1 true = Ok [7;7;7;7;7] /\
  dilate_n true [5] [0;0;0;7;0] [3] [1;1;1] 2 true = Ok [7;7;7;7;7] /\
  dilate_n true [5] [0;0;0;7;0] [3] [1;1;1] 2 false = Ok [0;7;7;7;7] /\
  dilate_n true [5] [0;0;0;0;7] [3] [1;1;1] 1 true = Ok [7;0;0;7;7] /\
  dilate_default_n true [1; 2; 2] [1;0; 0;0] 1 false = Ok [1;1; 1;1] /\
  dilate_default_n true [2; 2; 2] [1;0; 0;0; 0;0; 0;0] 1 false = Ok [1;1; 1;1; 1;1; 1;0].
Proof.
  assert (D : forall f, length f = 5%nat -> (forall x, In x f -> 0 <= x <= 7) -> dilatable_n true [5] f [3] [1;1;1]).
  { intros f HL HV. unfold dilatable_n, image, kernel. cbn [length].
    split; [lia|]. split; [split; [repeat constructor; lia|unfold lenZ; rewrite HL; reflexivity]|]. split; [reflexivity|].
    split; [split; [repeat constructor; lia|reflexivity]|]. split; [simpl; intros; lia|].
    split; [intros _; vm_compute; intuition discriminate|]. intros l Hl. apply HV in Hl. lia. }
  split; [apply D; [reflexivity|simpl; intros; lia]|]. split; [apply D; [reflexivity|simpl; intros; lia]|].
  split; [|repeat split; vm_compute; reflexivity].
  assert (E : forall p, pixel [5] p -> p = 0 \/ p = 1 \/ p = 2 \/ p = 3 \/ p = 4)
    by (intros p Hp; unfold pixel in Hp; cbn in Hp; lia).
  intros p q (Hp & Hq & HM). apply E in Hp. apply E in Hq.
  decompose [or] Hp; decompose [or] Hq; subst; vm_compute in HM; first [reflexivity|exfalso; intuition discriminate].
Qed.
