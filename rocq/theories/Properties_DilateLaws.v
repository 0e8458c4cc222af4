(** * Properties_DilateLaws: C129

    Images are lists of labels in row-major order, [pixel shape p]: [p] is the index of a pixel,
    [zn f p] the label of pixel [p]; [dilatable_n]: arguments of [dilate] (SpecDilate.v). *)

From Coq Require Import ZArith List Bool Lia.
From Verif Require Import Base SpecCluster Dilate SpecDilate SpecSymmetry SpecDilateLaws DilateLaws.
Import ListNotations.
Open Scope Z_scope.

(** ** C129 The algebra of dilation *)

(** The dilation of a union is the union of the dilations. *)
Theorem C129_union : forall asrt shape f g h ks kv n per, dilatable_n per shape f ks kv -> dilatable_n per shape g ks kv ->
  dilatable_n per shape h ks kv -> 0 <= n ->
  (forall p, pixel shape p -> (zn h p <> 0 <-> zn f p <> 0 \/ zn g p <> 0)) ->
  exists a b c, dilate_n asrt shape f ks kv n per = Ok a /\ dilate_n asrt shape g ks kv n per = Ok b /\
    dilate_n asrt shape h ks kv n per = Ok c /\
    forall p, pixel shape p -> (zn c p <> 0 <-> zn a p <> 0 \/ zn b p <> 0).
Proof. exact dilate_union. Qed.
Print Assumptions C129_union.

(** More pixels in the kernel never give less foreground; one iteration with the union of two
    kernels gives the union. *)
Theorem C129_larger_kernel : forall asrt shape f ks kv kv' n per, dilatable_n per shape f ks kv -> dilatable_n per shape f ks kv' -> 0 <= n ->
  (forall r, pixel ks r -> zn kv r = 1 -> zn kv' r = 1) ->
  exists a b, dilate_n asrt shape f ks kv n per = Ok a /\ dilate_n asrt shape f ks kv' n per = Ok b /\
    forall p, pixel shape p -> zn a p <> 0 -> zn b p <> 0.
Proof. exact dilate_kernel_mono. Qed.
Print Assumptions C129_larger_kernel.

Theorem C129_union_of_kernels : forall asrt shape f ks kv kv' kw per, dilatable_n per shape f ks kv -> dilatable_n per shape f ks kv' -> dilatable_n per shape f ks kw ->
  (forall r, pixel ks r -> (zn kw r = 1 <-> zn kv r = 1 \/ zn kv' r = 1)) ->
  exists a b c, dilate_n asrt shape f ks kv 1 per = Ok a /\ dilate_n asrt shape f ks kv' 1 per = Ok b /\ dilate_n asrt shape f ks kw 1 per = Ok c /\
    forall p, pixel shape p -> (zn c p <> 0 <-> zn a p <> 0 \/ zn b p <> 0).
Proof. exact dilate_kernel_union. Qed.
Print Assumptions C129_union_of_kernels.

(** Flipping image and kernel flips the dilated foreground, if the kernel has a middle. *)
Theorem C129_flipped : forall asrt shape f f' ks kv kv' n per which, dilatable_n per shape f ks kv -> dilatable_n per shape f' ks kv' ->
  odd_on which ks -> 0 <= n -> carried (flips which shape) f f' -> carried (flips which ks) kv kv' ->
  exists a b, dilate_n asrt shape f ks kv n per = Ok a /\ dilate_n asrt shape f' ks kv' n per = Ok b /\
    forall p p', flips which shape p p' -> (zn a p <> 0 <-> zn b p' <> 0).
Proof. exact dilate_flip. Qed.
Print Assumptions C129_flipped.

(** A kernel of even length has none. *)
Theorem C129_even_kernels_have_no_middle : exists shape f f' ks kv kv' n per which a b p p', dilatable_n per shape f ks kv /\ dilatable_n per shape f' ks kv' /\
  length which = length ks /\ carried (flips which shape) f f' /\ carried (flips which ks) kv kv' /\ flips which shape p p' /\
  dilate_n true shape f ks kv n per = Ok a /\ dilate_n true shape f' ks kv' n per = Ok b /\ zn a p <> 0 /\ zn b p' = 0.
Proof. exact flip_even_refuted. Qed.
Print Assumptions C129_even_kernels_have_no_middle.

(** Transposing image and kernel transposes the dilated foreground. *)
Theorem C129_transposed : forall asrt shape f f' ks kv kv' n per, dilatable_n per shape f ks kv -> dilatable_n per (rev shape) f' (rev ks) kv' ->
  0 <= n -> carried (transposes shape) f f' -> carried (transposes ks) kv kv' ->
  exists a b, dilate_n asrt shape f ks kv n per = Ok a /\ dilate_n asrt (rev shape) f' (rev ks) kv' n per = Ok b /\
    forall p p', transposes shape p p' -> (zn a p <> 0 <-> zn b p' <> 0).
Proof. exact dilate_transpose. Qed.
Print Assumptions C129_transposed.

(** The dilation of [f] meets [g] if and only if [f] meets the dilation of [g] by the kernel
    mirrored about its middle. *)
Theorem C129_adjoint : forall asrt shape f g ks kv kv' n per, dilatable_n per shape f ks kv -> dilatable_n per shape g ks kv' ->
  (forall k, In k ks -> k mod 2 = 1) -> 0 <= n -> carried (flips (every_axis ks) ks) kv kv' ->
  exists a b, dilate_n asrt shape f ks kv n per = Ok a /\ dilate_n asrt shape g ks kv' n per = Ok b /\
    ((exists p, pixel shape p /\ zn a p <> 0 /\ zn g p <> 0) <-> (exists p, pixel shape p /\ zn f p <> 0 /\ zn b p <> 0)).
Proof. exact dilate_adjoint. Qed.
Print Assumptions C129_adjoint.

(** An asymmetric kernel: steps of one to the right; mirrored, to the left. *)
Example C129_case : dilatable_n false [5] [0;7;0;0;0] [3] [0;0;1] /\ dilatable_n false [5] [0;0;0;7;0] [3] [1;0;0] /\ odd_on [true] [3] /\
  carried (flips [true] [5]) [0;7;0;0;0] [0;0;0;7;0] /\ carried (flips [true] [3]) [0;0;1] [1;0;0] /\
  dilate_n true [5] [0;7;0;0;0] [3] [0;0;1] 2 false = Ok [0;7;7;7;0] /\ dilate_n true [5] [0;0;0;7;0] [3] [1;0;0] 2 false = Ok [0;7;7;7;0] /\
  dilate_n true [2; 3] [0;3;0; 0;0;0] [1; 3] [1;1;1] 1 false = Ok [3;3;3; 0;0;0] /\
  dilate_n true [3; 2] [0;0; 3;0; 0;0] [3; 1] [1;1;1] 1 false = Ok [3;0; 3;0; 3;0].
Proof.
  assert (D : forall f kv, length f = 5%nat -> length kv = 3%nat -> (forall x, In x f -> 0 <= x <= 7) -> (forall x, In x kv -> x = 0 \/ x = 1) -> dilatable_n false [5] f [3] kv).
  { intros f kv L L' H H'. unfold dilatable_n, image, kernel, lenZ. rewrite L, L'. cbn [length].
    split; [lia|]. split; [split; [repeat constructor; lia|reflexivity]|]. split; [reflexivity|].
    split; [split; [repeat constructor; lia|reflexivity]|]. split; [exact H'|]. split; [discriminate|]. intros l Hl. apply H in Hl. lia. }
  split. { apply D; [reflexivity|reflexivity|cbn; intros; lia|cbn; intros; lia]. }
  split. { apply D; [reflexivity|reflexivity|cbn; intros; lia|cbn; intros; lia]. }
  split; [repeat constructor|].
  assert (C : forall m p q, flips [true] [m] p q -> 0 <= p < m /\ q = m - 1 - p).
  { intros m p q (P & Q & F). unfold pixel in *. cbn in P, Q, F. rewrite !Z.div_1_r in F. lia. }
  split. { intros p q H. apply C in H. destruct H as [H ->]. assert (E : p = 0 \/ p = 1 \/ p = 2 \/ p = 3 \/ p = 4) by lia. destruct E as [->|[->|[->|[->| ->]]]]; reflexivity. }
  split. { intros p q H. apply C in H. destruct H as [H ->]. assert (E : p = 0 \/ p = 1 \/ p = 2) by lia. destruct E as [->|[->| ->]]; reflexivity. }
  split; [vm_compute; reflexivity|]. split; [vm_compute; reflexivity|]. split; vm_compute; reflexivity.
Qed.
