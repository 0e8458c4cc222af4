(** * Properties_Pad: C121

    See properties.jsonl for the English statement; the specification is in SpecCluster.v,
    SpecDilate.v, SpecEnsemble.v and SpecPad.v. *)

From Coq Require Import ZArith QArith Qcanon List Bool Lia.
From Verif Require Import Base Cluster SpecCluster Dilate SpecDilate SpecSymmetry Path Ensemble SpecEnsemble SpecMoved SpecPad PadTop.
Import ListNotations.
Open Scope Z_scope.

(** ** C121 *)

(** Every pixel of the image has its place in the larger one, in the same order. *)
Theorem C121_every_pixel_is_placed : forall before after shape, margins before after shape -> Forall (fun n => 0 <= n) shape ->
  (forall p, pixel shape p -> exists q, placed before after shape p q) /\
  (forall p p' q q', placed before after shape p q -> placed before after shape p' q' -> (p < p' <-> q < q')) /\
  (forall p q q', placed before after shape p q -> placed before after shape p q' -> q = q').
Proof.
  intros before after shape HM HN. split; [|split]; intros.
  - apply placed_total; auto.
  - eapply placed_order; eauto.
  - eapply placed_fun; eauto.
Qed.
Print Assumptions C121_every_pixel_is_placed.

(** The labels are the same, number by number; the larger image may be periodic if along
    every axis there is a margin. *)
Theorem C121_clusters : forall asrt before after shape img img' per,
  good_shape shape -> (length shape <= 3)%nat -> margins before after shape ->
  zprod (widened before after shape) < big -> (per = true -> surrounded before after) ->
  zero_padded before after shape img img' ->
  exists lab lab', clusters asrt shape img false = Ok lab /\ clusters asrt (widened before after shape) img' per = Ok lab' /\
    zero_padded before after shape lab lab'.
Proof. exact pad_clusters. Qed.
Print Assumptions C121_clusters.

(** The dilated foreground inside the image is the same with the default kernel ... *)
Theorem C121_dilate_default : forall asrt before after shape f f' n,
  (1 <= length shape <= 3)%nat -> image shape f -> margins before after shape -> zero_padded before after shape f f' ->
  (forall l, In l f -> 0 <= l < 2 ^ 62) -> (forall l, In l f' -> 0 <= l < 2 ^ 62) -> 0 <= n ->
  exists ret ret', dilate_default_n asrt shape f n false = Ok ret /\ dilate_default_n asrt (widened before after shape) f' n false = Ok ret' /\
    forall p q, placed before after shape p q -> (zn ret p <> 0 <-> zn ret' q <> 0).
Proof. exact pad_default. Qed.
Print Assumptions C121_dilate_default.

(** ... and with every kernel that has, with a displacement, also those in between. *)
Theorem C121_dilate_partial : forall asrt before after shape f f' ks kv n,
  dilatable_n false shape f ks kv -> dilatable_n false (widened before after shape) f' ks kv ->
  margins before after shape -> zero_padded before after shape f f' -> shrinkable ks kv -> 0 <= n ->
  exists ret ret', dilate_n asrt shape f ks kv n false = Ok ret /\ dilate_n asrt (widened before after shape) f' ks kv n false = Ok ret' /\
    forall p q, placed before after shape p q -> (zn ret p <> 0 <-> zn ret' q <> 0).
Proof. exact pad_dilate. Qed.
Print Assumptions C121_dilate_partial.

(** With any kernel the larger image has at least as much foreground; it can have more, as a
    label can leave the image and come back. *)
Theorem C121_dilate_more : forall asrt before after shape f f' ks kv n,
  dilatable_n false shape f ks kv -> dilatable_n false (widened before after shape) f' ks kv ->
  margins before after shape -> zero_padded before after shape f f' -> 0 <= n ->
  exists ret ret', dilate_n asrt shape f ks kv n false = Ok ret /\ dilate_n asrt (widened before after shape) f' ks kv n false = Ok ret' /\
    forall p q, placed before after shape p q -> zn ret p <> 0 -> zn ret' q <> 0.
Proof. exact pad_dilate_more. Qed.
Print Assumptions C121_dilate_more.

Theorem C121_dilate_refuted : exists before after shape f f' ks kv n ret ret' p q,
  dilatable_n false shape f ks kv /\ dilatable_n false (widened before after shape) f' ks kv /\
  margins before after shape /\ zero_padded before after shape f f' /\ 0 <= n /\
  dilate_n true shape f ks kv n false = Ok ret /\ dilate_n true (widened before after shape) f' ks kv n false = Ok ret' /\
  placed before after shape p q /\ zn ret p = 0 /\ zn ret' q <> 0.
Proof. exact pad_dilate_far. Qed.
Print Assumptions C121_dilate_refuted.

(** Two-point statistics: the margin, whatever it holds, is masked. *)
Theorem C121_statistics : forall asrt var roi before after shape c c',
  shapes false roi shape -> margins before after shape -> masked_around before after shape c c' ->
  exists e e', fresh asrt roi false var c = Ok e /\ fresh asrt roi false var c' = Ok e' /\
    forall r, pixel roi r -> same_at e r e' r.
Proof. exact pad_two_point. Qed.
Print Assumptions C121_statistics.

(** An image of two by two pixels in one of three by three. *)
Example C121_case :
  let zp := zero_padded [1; 0] [0; 1] [2; 2] in
  margins [1; 0] [0; 1] [2; 2] /\ widened [1; 0] [0; 1] [2; 2] = [3; 3] /\ surrounded [1; 0] [0; 1] /\
  zp [1;0; 0;2] [0;0;0; 1;0;0; 0;2;0] /\
  clusters true [2; 2] [1;0; 0;2] false = Ok [1;0; 0;2] /\ clusters true [3; 3] [0;0;0; 1;0;0; 0;2;0] true = Ok [0;0;0; 1;0;0; 0;2;0] /\
  masked_around [1; 0] [0; 1] [2; 2] (CallHH (mkimg [2; 2] (map zq [1;2; 3;4])) None)
    (CallHH (mkimg [3; 3] (map zq [7;7;7; 1;2;7; 3;4;7])) (Some (mkimg [3; 3] [1;1;1; 0;0;1; 0;0;1]))) /\
  shapes false [3; 3] [2; 2] /\ shrinkable [3] [1;1;1].
Proof.
  cbv zeta. split; [split; [reflexivity|]; split; [reflexivity|]; split; repeat constructor; lia|]. split; [reflexivity|].
  split; [repeat constructor; cbn; lia|].
  split. { split; [reflexivity|]. split; [reflexivity|]. split; [carried_cases 4%nat 9%nat|margin_cases 9%nat]. }
  split; [vm_compute; reflexivity|]. split; [vm_compute; reflexivity|].
  split. { split; [split; [split; reflexivity|]; split; [split; reflexivity|]; carried_cases 4%nat 9%nat|].
    split; [discriminate|]. split; [split; [split; reflexivity|intros x IN; cbn in IN; intuition lia]|]. split; [carried_cases 4%nat 9%nat|margin_cases 9%nat]. }
  split; [split; [reflexivity|]; split; [cbn; lia|]; split; [repeat constructor; lia|]; split; [repeat constructor; lia|discriminate]|].
  intros d d' (p & P & V & M) F. destruct d as [|t [|]]; [cbn in M; tauto| |cbn in M; tauto].
  inversion F as [|? t' ? ? H F']; subst. inversion F'; subst. clear F F'.
  assert (T : -1 <= t <= 1). { destruct M as [M _]. change (coords [3] p) with [p / 1] in M. unfold pixel in P. change (zprod [3]) with 3 in P.
    change (p / 1 = 1 + t) in M. rewrite Z.div_1_r in M. lia. }
  assert (C : t' = -1 \/ t' = 0 \/ t' = 1) by lia.
  destruct C as [->|[->| ->]]; [exists 0|exists 1|exists 2]; (split; [unfold pixel; cbn; lia|]); repeat split.
Qed.
