(** * Properties_Dilate: C22 - C26

    Statements only; each is closed by a lemma proved elsewhere.  Images are flattened
    row-major; [zn l p] is element [p] of [l].  [asrt] says whether the library was compiled
    with assertions. *)

From Coq Require Import ZArith List Bool Lia.
From Verif Require Import Base SpecCluster Array3 Dilate SpecDilate DilateTop DilateMore.
Import ListNotations.
Open Scope Z_scope.

(** ** C22: whenever [dilate] returns, for any kernel *)
Theorem C22_dilate_keeps_labelled_pixels : forall asrt shape f ks kv iterations per ret,
  image shape f -> kernel ks kv -> (forall n, In n iterations -> 0 <= n) ->
  dilate asrt shape f ks kv iterations per = Ok ret ->
  lenZ ret = lenZ f /\ forall p, pixel shape p -> zn f p <> 0 -> zn ret p = zn f p.
Proof. exact dilate_body. Qed.
Print Assumptions C22_dilate_keeps_labelled_pixels.

(** ... and it does return for the arguments it is meant for. *)
Theorem C22_dilate_returns : forall asrt shape f ks kv iterations per,
  dilatable per shape f ks kv iterations ->
  exists ret, dilate asrt shape f ks kv iterations per = Ok ret.
Proof.
  intros asrt shape f ks kv iterations per H.
  destruct (dilate_ok asrt _ _ _ _ _ _ H) as (ret & n & E & _). exists ret. exact E.
Qed.
Print Assumptions C22_dilate_returns.

Example C22_case :
  dilatable true [3; 4] [0;1;0;0; 0;0;0;2; 0;0;0;0] [3; 3] [0;1;0; 1;1;1; 0;1;0] [0; 2; 1] /\
  dilate true [3; 4] [0;1;0;0; 0;0;0;2; 0;0;0;0] [3; 3] [0;1;0; 1;1;1; 0;1;0] [0; 2; 1] true =
    Ok [1;1;1;1; 2;1;2;2; 1;1;1;2].
Proof.
  split; [|vm_compute; reflexivity]. unfold dilatable, image, kernel. cbn [length].
  split; [lia|]. split; [split; [repeat constructor; lia|reflexivity]|]. split; [reflexivity|].
  split; [split; [repeat constructor; lia|reflexivity]|]. split; [simpl; intros; lia|].
  split; [intros _; vm_compute; intuition discriminate|]. split; [discriminate|].
  split; [simpl; intros; lia|]. change (lenZ [0;2;1]) with 3. simpl. intros; lia.
Qed.

(** ** C23 *)
Theorem C23_dilated_foreground_is_minkowski : forall asrt shape f ks kv n per,
  dilatable_n per shape f ks kv -> 0 <= n ->
  exists ret, dilate_n asrt shape f ks kv n per = Ok ret /\ lenZ ret = lenZ f /\
  forall p, pixel shape p -> (zn ret p <> 0 <->
    reaches (kernel_step per shape ks kv) (fun x => pixel shape x /\ zn f x <> 0) n p).
Proof. exact dilate_n_ok. Qed.
Print Assumptions C23_dilated_foreground_is_minkowski.

(** With the default kernel in rank 1 and 2: the pixels within [n] face-to-face steps. *)
Theorem C23_default_kernel : forall asrt shape f n per,
  (1 <= length shape <= 2)%nat -> image shape f -> (forall l, In l f -> 0 <= l < 2 ^ 62) -> 0 <= n ->
  exists ret, dilate_default_n asrt shape f n per = Ok ret /\ lenZ ret = lenZ f /\
  forall p, pixel shape p -> (zn ret p <> 0 <->
    reaches (face_neighbour per shape) (fun x => pixel shape x /\ zn f x <> 0) n p).
Proof. exact dilate_default_n_ok. Qed.
Print Assumptions C23_default_kernel.

(** An asymmetric kernel of even length, on a periodic image. *)
Example C23_case :
  dilatable_n true [5] [0;0;0;7;0] [2] [0;1] /\
  dilate_n true [5] [0;0;0;7;0] [2] [0;1] 2 true = Ok [7;0;0;7;7] /\
  dilate_n true [5] [0;0;0;7;0] [2] [0;1] 2 false = Ok [0;0;0;7;7] /\
  dilate_default_n true [3; 3] [0;0;0; 0;0;0; 0;0;4] 1 true = Ok [0;0;4; 0;0;4; 4;4;4].
Proof.
  split; [|split; [|split]; vm_compute; reflexivity]. unfold dilatable_n, image, kernel. cbn [length].
  split; [lia|]. split; [split; [repeat constructor; lia|reflexivity]|]. split; [reflexivity|].
  split; [split; [repeat constructor; lia|reflexivity]|]. split; [simpl; intros; lia|].
  split; [intros _; vm_compute; intuition discriminate|]. simpl. intros; lia.
Qed.

(** ** C24 *)
Theorem C24_labels_spread_from_their_own_pixels : forall asrt shape f ks kv iterations per,
  dilatable per shape f ks kv iterations ->
  exists ret, dilate asrt shape f ks kv iterations per = Ok ret /\
  forall p, pixel shape p -> zn ret p <> 0 ->
    0 <= zn ret p < lenZ iterations /\
    reaches (kernel_step per shape ks kv) (fun x => pixel shape x /\ zn f x = zn ret p)
      (zn iterations (zn ret p)) p.
Proof. exact dilate_labels. Qed.
Print Assumptions C24_labels_spread_from_their_own_pixels.

Example C24_case :
  dilate true [7] [0;1;0;0;0;2;0] [3] [1;1;1] [0; 2; 1] false = Ok [1;1;1;1;2;2;2] /\
  dilate true [7] [0;1;0;0;0;2;0] [3] [1;1;1] [0; 0; 1] false = Ok [0;1;0;0;2;2;2].
Proof. split; vm_compute; reflexivity. Qed.

(** ** C25: true when not periodic ... *)
Theorem C25_more_iterations_keep_labels_partial : forall asrt shape f ks kv n,
  dilatable_n false shape f ks kv -> 0 <= n ->
  exists ret ret', dilate_n asrt shape f ks kv n false = Ok ret /\
    dilate_n asrt shape f ks kv (n + 1) false = Ok ret' /\
    forall p, pixel shape p -> zn ret p <> 0 -> zn ret' p = zn ret p.
Proof. exact dilate_n_more. Qed.
Print Assumptions C25_more_iterations_keep_labels_partial.

Example C25_case :
  dilate_n true [7] [1;0;0;0;0;2;0] [3] [1;1;1] 1 false = Ok [1;1;0;0;2;2;2] /\
  dilate_n true [7] [1;0;0;0;0;2;0] [3] [1;1;1] 2 false = Ok [1;1;1;2;2;2;2].
Proof. split; vm_compute; reflexivity. Qed.

(** ... and false when periodic: the labels of the pixels at the two ends change in the
    second iteration. *)
Theorem C25_more_iterations_keep_labels_periodic_refuted :
  exists shape f ks kv n ret ret' p,
    dilatable_n true shape f ks kv /\ 0 <= n /\
    dilate_n true shape f ks kv n true = Ok ret /\ dilate_n true shape f ks kv (n + 1) true = Ok ret' /\
    pixel shape p /\ zn ret p <> 0 /\ zn ret' p <> zn ret p.
Proof.
  exists [5], [0;1;0;2;0], [3], [1;1;1], 1, [1;1;2;2;2], [2;1;2;2;1], 0.
  split.
  { unfold dilatable_n, image, kernel. cbn [length].
    split; [lia|]. split; [split; [repeat constructor; lia|reflexivity]|]. split; [reflexivity|].
    split; [split; [repeat constructor; lia|reflexivity]|]. split; [simpl; intros; lia|].
    split; [intros _; vm_compute; intuition discriminate|]. simpl. intros; lia. }
  split; [lia|]. split; [vm_compute; reflexivity|]. split; [vm_compute; reflexivity|].
  split; [vm_compute; intuition discriminate|]. split; vm_compute; discriminate.
Qed.
Print Assumptions C25_more_iterations_keep_labels_periodic_refuted.

(** ** C26: false of the code: the guard lets through a label that is beyond the list *)
Theorem C26_dilate_guard_refuted :
  exists shape f ks kv iterations per, image shape f /\ kernel ks kv /\
    (forall n, In n iterations -> 0 <= n) /\ (forall l, In l f -> 0 <= l) /\
    dilate true shape f ks kv iterations per = UB.
Proof.
  exists [3], [0;0;2], [3], [1;1;1], [1;1], true.
  split; [split; [repeat constructor; lia|reflexivity]|]. split; [split; [repeat constructor; lia|reflexivity]|].
  split; [simpl; intros; lia|]. split; [simpl; intros; lia|]. vm_compute. reflexivity.
Qed.
Print Assumptions C26_dilate_guard_refuted.

(** What does hold: if every label indexes the list, the call stays inside it; and if the
    largest label exceeds the length by two or more, it throws. *)
Theorem C26_dilate_guard_partial : forall shape f ks kv iterations per,
  (dilatable per shape f ks kv iterations ->
     exists ret, dilate true shape f ks kv iterations per = Ok ret) /\
  (forall m, (forall l, In l f -> 0 <= l < 2 ^ 62) -> amax f = Ok m -> lenZ iterations + 1 < m ->
     dilate true shape f ks kv iterations per = Throw).
Proof. exact dilate_guard. Qed.
Print Assumptions C26_dilate_guard_partial.

(** In between it reads outside the list, for every image: with a label that is the length of
    the list or one more the guard is passed, and without assertions any larger label does
    it (lists of at least two numbers, of which one at least is not zero). *)
Theorem C26_dilate_reads_outside : forall asrt shape f ks kv iterations per,
  (length shape <= 3)%nat -> image shape f -> length ks = length shape -> kernel ks kv ->
  (forall k, In k kv -> k = 0 \/ k = 1) ->
  (forall n, In n iterations -> 0 <= n) -> (exists n, In n iterations /\ 0 < n) -> 2 <= lenZ iterations ->
  (forall l, In l f -> 0 <= l < 2 ^ 62) -> (exists l, In l f /\ lenZ iterations <= l) ->
  (asrt = true -> forall l, In l f -> l <= lenZ iterations + 1) ->
  dilate asrt shape f ks kv iterations per = UB.
Proof. exact dilate_outside. Qed.
Print Assumptions C26_dilate_reads_outside.

Example C26_case :
  dilate true [3] [0;0;4] [3] [1;1;1] [1;1] false = Throw /\
  dilate true [3] [0;0;1] [3] [1;1;1] [1;1] false = Ok [0;1;1] /\
  dilate true [3] [0;0;3] [3] [1;1;1] [1;1] false = UB /\
  dilate false [3] [0;0;4] [3] [1;1;1] [1;1] false = UB.
Proof. repeat split; vm_compute; reflexivity. Qed.
