(** * Properties_Cluster: C01 - C15, C51, C64

    Statements only; each is closed by a lemma proved elsewhere.  [zn l p] is element [p] of
    [l].  [c_label s] is what [labels()] returns (flattened row-major).  [asrt] says whether
    the library was compiled with assertions. *)

From Coq Require Import ZArith List Bool Lia Sorted.
From Verif Require Import Base Cluster Kernel SpecCluster ClusterMain ClusterAny ClusterTop KernelProofs ClusterGeom ClusterMore.
Import ListNotations.
Open Scope Z_scope.

(** ** C01 *)
Theorem C01_clusters_are_connected_components :
  forall asrt shape img per, good_shape shape -> (length shape <= 3)%nat ->
  lenZ img = zprod shape ->
  exists lab, clusters asrt shape img per = Ok lab /\ lenZ lab = zprod shape /\
    (forall p, pixel shape p -> (zn lab p = 0 <-> zn img p = 0)) /\
    (forall p q, pixel shape p -> pixel shape q -> zn img p <> 0 -> zn img q <> 0 ->
       (zn lab p = zn lab q <->
        linked (face_neighbour per shape) (fun x => pixel shape x /\ zn img x <> 0) p q)).
Proof.
  intros asrt shape img per H1 H2 H3.
  destruct (clusters_ok asrt shape img per H1 H2 H3) as (lab & E & A & B & C & _). eauto 6.
Qed.
Print Assumptions C01_clusters_are_connected_components.

Example C01_case : good_shape [3; 4] /\ (length [3; 4] <= 3)%nat /\
  lenZ [1;0;0;1; 1;0;2;0; 0;0;5;0] = zprod [3; 4] /\
  clusters true [3; 4] [1;0;0;1; 1;0;2;0; 0;0;5;0] false = Ok [1;0;0;2; 1;0;3;0; 0;0;3;0] /\
  clusters true [3; 4] [1;0;0;1; 1;0;2;0; 0;0;5;0] true = Ok [1;0;0;1; 1;0;2;0; 0;0;2;0].
Proof.
  split; [split; [discriminate|split; [repeat constructor; discriminate|reflexivity]]|].
  split; [simpl; lia|]. vm_compute. auto.
Qed.

(** ** C02 *)
Theorem C02_clusters_numbered_in_scan_order :
  forall asrt shape img per, good_shape shape -> (length shape <= 3)%nat ->
  lenZ img = zprod shape ->
  exists lab, clusters asrt shape img per = Ok lab /\
    (forall p, pixel shape p -> 0 <= zn lab p) /\
    (exists n, forall v, 1 <= v <= n <-> v <> 0 /\ exists p, pixel shape p /\ zn lab p = v) /\
    (forall p q f h, pixel shape p -> pixel shape q -> zn lab p <> 0 -> zn lab q <> 0 ->
       first_of shape lab f p -> first_of shape lab h q -> (zn lab p < zn lab q <-> f < h)).
Proof.
  intros asrt shape img per H1 H2 H3.
  destruct (clusters_ok asrt shape img per H1 H2 H3) as (lab & E & _ & _ & _ & A & B & C). eauto 6.
Qed.
Print Assumptions C02_clusters_numbered_in_scan_order.

(** Zero set, partition (C01) and these numbering rules leave only one possible output. *)
Theorem C02_numbering_is_determined : forall shape a b,
  (forall lab, lab = a \/ lab = b ->
    (forall p, pixel shape p -> 0 <= zn lab p) /\
    (exists n, forall v, 1 <= v <= n <-> v <> 0 /\ exists p, pixel shape p /\ zn lab p = v) /\
    (forall p q f h, pixel shape p -> pixel shape q -> zn lab p <> 0 -> zn lab q <> 0 ->
       first_of shape lab f p -> first_of shape lab h q -> (zn lab p < zn lab q <-> f < h))) ->
  (forall p, pixel shape p -> (zn a p = 0 <-> zn b p = 0)) ->
  (forall p q, pixel shape p -> pixel shape q -> (zn a p = zn a q <-> zn b p = zn b q)) ->
  forall p, pixel shape p -> zn a p = zn b p.
Proof. exact clusters_determined. Qed.
Print Assumptions C02_numbering_is_determined.

(** The first pixel of the second cluster comes after that of the first, although the first
    cluster is completed last. *)
Example C02_case : good_shape [3; 3] /\ lenZ [0;1;0; 1;0;0; 1;1;1] = zprod [3; 3] /\
  clusters true [3; 3] [0;1;0; 1;0;0; 1;1;1] false = Ok [0;1;0; 2;0;0; 2;2;2].
Proof.
  split; [split; [discriminate|split; [repeat constructor; discriminate|reflexivity]]|].
  vm_compute. auto.
Qed.

(** ** C03 *)
Theorem C03_foreground_is_what_was_added :
  forall asrt g ops, wf g -> Forall (legal (g_shape g)) ops ->
  exists s outs, run asrt g ops = Ok (s, outs) /\ lenZ (c_label s) = zprod (g_shape g) /\
    forall p, pixel (g_shape g) p -> (zn (c_label s) p <> 0 <-> added ops p).
Proof. exact run_support. Qed.
Print Assumptions C03_foreground_is_what_was_added.

(** A labeller, and a history with every kind of call, used in the examples below. *)
Definition ex_g : cfg := mkcfg [3; 3] false [[-1; 0]; [0; -1]; [0; 1]; [1; 0]].
Definition ex_ops : list op :=
  [AddImage [3; 3] [1;1;0; 0;0;0; 0;0;1]; Prune; AddPoints [0]; Reset; AddPoints [0; 8];
   AddSequence [2; 1; 5]; Prune; AddImage [3; 3] [0;0;0; 1;0;0; 0;0;0]].

Example ex_wf : wf ex_g /\ in_range ex_g /\ symmetric ex_g /\ Forall (legal (g_shape ex_g)) ex_ops.
Proof.
  split; [|split; [|split]].
  - split; [discriminate|]. split; [repeat constructor; discriminate|]. split; [reflexivity|].
    intros d Hd. simpl in Hd.
    repeat (destruct Hd as [<-|Hd]; [split; [reflexivity|repeat constructor; unfold big; lia]|]). tauto.
  - cbn. intros d0 d1 Hd. repeat (destruct Hd as [E|Hd]; [injection E as <- <-; lia|]). tauto.
  - intros d Hd. simpl in *. repeat (destruct Hd as [<-|Hd]; [simpl; tauto|]). tauto.
  - unfold ex_ops. repeat (apply Forall_cons; [cbn [legal ex_g g_shape]|]); try apply Forall_nil; auto;
    try (split; [discriminate|]); unfold pixel; simpl; intros; lia.
Qed.

Example C03_case : exists s outs, run true ex_g ex_ops = Ok (s, outs) /\
  c_label s = [1;1;1; 1;0;1; 0;0;1] /\ outs = [[]; []; []; []; []; [0; 1; 2; 3]; []; []].
Proof. do 2 eexists. vm_compute. auto. Qed.

(** ** C04 *)
Theorem C04_partition_is_connected_components :
  forall asrt g ops, wf g -> in_range g -> symmetric g -> Forall (legal (g_shape g)) ops ->
  exists s outs, run asrt g ops = Ok (s, outs) /\
  forall p q, pixel (g_shape g) p -> pixel (g_shape g) q -> added ops p -> added ops q ->
   (zn (c_label s) p = zn (c_label s) q <->
    linked (neighbour (g_per g) (g_shape g) (g_dx g)) (fun x => pixel (g_shape g) x /\ added ops x) p q).
Proof. exact run_partition. Qed.
Print Assumptions C04_partition_is_connected_components.

(** The same for the two public constructors, in the user's terms. *)
Theorem C04_partition_default_constructor :
  forall asrt shape per ops, good_shape shape -> (length shape <= 3)%nat -> Forall (legal shape) ops ->
  exists g s outs, make_default shape per = Ok g /\ run asrt g ops = Ok (s, outs) /\
  forall p q, pixel shape p -> pixel shape q -> added ops p -> added ops q ->
   (zn (c_label s) p = zn (c_label s) q <->
    linked (face_neighbour per shape) (fun x => pixel shape x /\ added ops x) p q).
Proof. exact run_partition_default. Qed.
Print Assumptions C04_partition_default_constructor.

Theorem C04_partition_kernel_constructor :
  forall asrt shape per ks kv ops, good_shape shape -> good_kernel shape ks kv ->
  kernel_symmetric ks kv -> offsets_in_range per shape (set_offset ks kv) ->
  Forall (legal shape) ops ->
  exists g s outs, make_kernel asrt shape per ks kv = Ok g /\ run asrt g ops = Ok (s, outs) /\
  forall p q, pixel shape p -> pixel shape q -> added ops p -> added ops q ->
   (zn (c_label s) p = zn (c_label s) q <->
    linked (kernel_neighbour per shape ks kv) (fun x => pixel shape x /\ added ops x) p q).
Proof. exact run_partition_kernel. Qed.
Print Assumptions C04_partition_kernel_constructor.

(** A diagonal kernel on a 2x3 image. *)
Example C04_case : good_shape [2; 3] /\ good_kernel [2; 3] [3; 3] [1;0;1; 0;1;0; 1;0;1] /\
  kernel_symmetric [3; 3] [1;0;1; 0;1;0; 1;0;1] /\
  offsets_in_range false [2; 3] (set_offset [3; 3] [1;0;1; 0;1;0; 1;0;1]) /\
  exists g s outs, make_kernel true [2; 3] false [3; 3] [1;0;1; 0;1;0; 1;0;1] = Ok g /\
    run true g [AddPoints [0; 3]; AddSequence [4; 5]] = Ok (s, outs) /\ c_label s = [1;0;0; 2;1;3].
Proof.
  split; [split; [discriminate|split; [repeat constructor; discriminate|reflexivity]]|].
  assert (K : good_kernel [2; 3] [3; 3] [1;0;1; 0;1;0; 1;0;1]).
  { split; [reflexivity|]. split; [repeat constructor; unfold big; lia|]. split; [reflexivity|].
    intros p Hp Hc. rewrite coords2 in Hc. injection Hc as E1 E2.
    pose proof (Z.div_mod p 3 ltac:(lia)). change (3 / 2) with 1 in *. assert (p = 4) as -> by lia. reflexivity. }
  split; [exact K|].
  destruct (kernel_to_dx_ok true _ _ _ K) as (dx & E & S). vm_compute in E. injection E as <-.
  assert (Z0 : set_offset [3; 3] [1;0;1; 0;1;0; 1;0;1] [0; 0]).
  { exists 4. split; [unfold pixel; simpl; lia|]. split; [discriminate|]. vm_compute. auto. }
  split.
  { intros d Hd. destruct (list_eq_dec Z.eq_dec d [0; 0]) as [->|Hn]; [exact Z0|].
    assert (X : In (map Z.opp d) [[-1; -1]; [-1; 1]; [1; -1]; [1; 1]]).
    { pose proof (proj2 (S d) (conj Hd Hn)) as Y. simpl in *.
      destruct Y as [<-|[<-|[<-|[<-|[]]]]]; simpl; tauto. }
    apply (S _); exact X. }
  split; [cbn; intros; lia|].
  do 3 eexists. split; [vm_compute; reflexivity|]. split; [vm_compute; reflexivity|]. reflexivity.
Qed.

(** ** C05 *)
Theorem C05_partition_independent_of_order_and_batching :
  forall asrt1 asrt2 g ops1 ops2 s1 s2 o1 o2, wf g -> in_range g -> symmetric g ->
  Forall (legal (g_shape g)) ops1 -> Forall (legal (g_shape g)) ops2 ->
  (forall p, pixel (g_shape g) p -> (added ops1 p <-> added ops2 p)) ->
  run asrt1 g ops1 = Ok (s1, o1) -> run asrt2 g ops2 = Ok (s2, o2) ->
  forall p q, pixel (g_shape g) p -> pixel (g_shape g) q ->
    (zn (c_label s1) p = 0 <-> zn (c_label s2) p = 0) /\
    (zn (c_label s1) p = zn (c_label s1) q <-> zn (c_label s2) p = zn (c_label s2) q).
Proof. exact run_order. Qed.
Print Assumptions C05_partition_independent_of_order_and_batching.

Example C05_case : exists s1 o1 s2 o2,
  run true ex_g [AddPoints [0; 2; 1; 8]] = Ok (s1, o1) /\
  run true ex_g [AddPoints [8]; Prune; AddSequence [1; 2]; AddImage [3; 3] [1;0;0;0;0;0;0;0;0]] = Ok (s2, o2) /\
  c_label s1 = [1;1;1; 0;0;0; 0;0;3] /\ c_label s2 = [2;2;2; 0;0;0; 0;0;1].
Proof. do 4 eexists. vm_compute. auto. Qed.

(** ** C06 *)
(** Legal calls always return, with and without assertions. *)
Theorem C06_legal_calls_return :
  forall asrt g ops, wf g -> Forall (legal (g_shape g)) ops -> exists r, run asrt g ops = Ok r.
Proof. exact run_defined. Qed.
Print Assumptions C06_legal_calls_return.

(** The same for any labeller made with a kernel that satisfies the documented conditions,
    symmetric or not, also outside the range of C13. *)
Theorem C06_legal_calls_return_any_kernel :
  forall asrt shape per ks kv ops, good_shape shape -> good_kernel shape ks kv ->
  Forall (legal shape) ops ->
  exists g r, make_kernel asrt shape per ks kv = Ok g /\ run asrt g ops = Ok r.
Proof. exact kernel_defined. Qed.
Print Assumptions C06_legal_calls_return_any_kernel.

(** With assertions, a history that contains an illegal call throws, and nothing else can
    happen. *)
Theorem C06_illegal_calls_throw_with_assertions :
  forall g ops, wf g -> Forall representable ops ->
  (exists r, run true g ops = Ok r) \/
  (run true g ops = Throw /\ ~ Forall (legal (g_shape g)) ops).
Proof. exact run_asserted. Qed.
Print Assumptions C06_illegal_calls_throw_with_assertions.

Example C06_case : run true ex_g [AddPoints [3]; AddPoints [9]] = Throw /\
  run false ex_g [AddPoints [9]] = UB /\ run true ex_g [AddSequence []] = Throw /\
  run true ex_g [AddImage [9] [1;1;1;1;1;1;1;1;1]] = Throw.
Proof. vm_compute. auto. Qed.

(** ** C07 *)
Theorem C07_add_keeps_smallest_previous_label :
  forall asrt g ops o s out s' out', wf g -> Forall (legal (g_shape g)) ops ->
  legal (g_shape g) o -> is_add o ->
  run asrt g ops = Ok (s, out) -> step asrt g s o = Ok (s', out') ->
  forall p, pixel (g_shape g) p -> zn (c_label s') p <> 0 ->
    (forall q, pixel (g_shape g) q -> zn (c_label s') q = zn (c_label s') p -> zn (c_label s) q <> 0 ->
       zn (c_label s') p <= zn (c_label s) q /\
       exists q', pixel (g_shape g) q' /\ zn (c_label s') q' = zn (c_label s') p /\
                  zn (c_label s) q' = zn (c_label s') p) /\
    ((forall q, pixel (g_shape g) q -> zn (c_label s') q = zn (c_label s') p -> zn (c_label s) q = 0) ->
       forall q, pixel (g_shape g) q -> zn (c_label s) q <> zn (c_label s') p).
Proof. exact run_add_labels. Qed.
Print Assumptions C07_add_keeps_smallest_previous_label.

(** Clusters 1 and 2 merge to 1; the new one takes 4 because 3 is in use. *)
Example C07_case : exists s out s' out',
  run true ex_g [AddPoints [0; 2; 8]] = Ok (s, out) /\ c_label s = [1;0;2; 0;0;0; 0;0;3] /\
  step true ex_g s (AddPoints [1; 6]) = Ok (s', out') /\ c_label s' = [1;1;1; 0;0;0; 4;0;3].
Proof.
  do 4 eexists. split; [vm_compute; reflexivity|]. split; [reflexivity|].
  split; [vm_compute; reflexivity|]. reflexivity.
Qed.

(** ** C08 *)
Theorem C08_prune_renumbers_and_keeps_the_rest :
  forall asrt g ops s outs, wf g -> Forall (legal (g_shape g)) ops -> run asrt g ops = Ok (s, outs) ->
  exists s', prune s = Ok s' /\ lenZ (c_label s') = lenZ (c_label s) /\
    (forall p, pixel (g_shape g) p -> (zn (c_label s') p = 0 <-> zn (c_label s) p = 0)) /\
    (forall p q, pixel (g_shape g) p -> pixel (g_shape g) q ->
       (zn (c_label s') p < zn (c_label s') q <-> zn (c_label s) p < zn (c_label s) q)) /\
    (forall v, 1 <= v <= Z.of_nat (nclusters (c_label s)) <->
       v <> 0 /\ exists p, pixel (g_shape g) p /\ zn (c_label s') p = v) /\
    (exists s'', prune s' = Ok s'' /\ c_label s'' = c_label s').
Proof. exact run_prune. Qed.
Print Assumptions C08_prune_renumbers_and_keeps_the_rest.

Example C08_case : exists s out s',
  run true ex_g [AddPoints [0; 2; 8; 1]] = Ok (s, out) /\ c_label s = [1;1;1; 0;0;0; 0;0;3] /\
  prune s = Ok s' /\ c_label s' = [1;1;1; 0;0;0; 0;0;2].
Proof.
  do 3 eexists. split; [vm_compute; reflexivity|]. split; [reflexivity|].
  split; [vm_compute; reflexivity|]. reflexivity.
Qed.

(** ** C09 *)
Theorem C09_reset_is_fresh :
  forall asrt g ops s outs ops', wf g -> Forall (legal (g_shape g)) ops -> run asrt g ops = Ok (s, outs) ->
  run_from asrt g (reset s) ops' = run asrt g ops'.
Proof. exact run_reset. Qed.
Print Assumptions C09_reset_is_fresh.

Example C09_case : exists s out, run true ex_g [AddPoints [0; 2; 8; 1]] = Ok (s, out) /\
  s <> init ex_g /\
  run_from true ex_g (reset s) [AddSequence [8; 0; 5]] = run true ex_g [AddSequence [8; 0; 5]].
Proof.
  do 2 eexists. split; [vm_compute; reflexivity|]. split; [discriminate|]. vm_compute. reflexivity.
Qed.

(** ** C10 *)
Theorem C10_add_sequence_labels_and_reports :
  forall asrt g ops s outs l, wf g -> Forall (legal (g_shape g)) ops -> run asrt g ops = Ok (s, outs) ->
  legal (g_shape g) (AddSequence l) ->
  exists s1 s2 ret, add_points asrt g s l = Ok s1 /\ add_sequence asrt g s l = Ok (s2, ret ++ [lenZ l]) /\
    c_label s2 = c_label s1 /\ StronglySorted Z.lt (ret ++ [lenZ l]) /\
    (forall i, In i ret -> 0 <= i < lenZ l) /\
    (forall k t1 t2, (k < length l)%nat -> add_points asrt g s (firstn k l) = Ok t1 ->
        add_points asrt g s (firstn (S k) l) = Ok t2 ->
        nclusters (c_label t2) <> nclusters (c_label t1) -> In (Z.of_nat k) ret).
Proof. exact run_sequence. Qed.
Print Assumptions C10_add_sequence_labels_and_reports.

(** New at 0, joined at 1, new at 2, merge at 3. *)
Example C10_case : exists s outs, run true ex_g [] = Ok (s, outs) /\
  legal (g_shape ex_g) (AddSequence [0; 1; 8; 5; 2]) /\
  exists s2, add_sequence true ex_g s [0; 1; 8; 5; 2] = Ok (s2, [0; 2; 4] ++ [5]) /\
    c_label s2 = [1;1;1; 0;0;1; 0;0;1].
Proof.
  do 2 eexists. split; [reflexivity|]. split.
  - split; [discriminate|]. simpl. unfold pixel. simpl. intros; lia.
  - eexists. split; [vm_compute; reflexivity|]. reflexivity.
Qed.

(** ** C11: false.  Position 4 of the sequence revisits a labelled pixel; nothing is started
    or merged there, but it is reported. *)
Theorem C11_add_sequence_reports_more_refuted :
  exists g s l s2 ret k t1 t2, wf g /\ s = init g /\ legal (g_shape g) (AddSequence l) /\
    add_sequence true g s l = Ok (s2, ret ++ [lenZ l]) /\ In (Z.of_nat k) ret /\
    add_points true g s (firstn k l) = Ok t1 /\ add_points true g s (firstn (S k) l) = Ok t2 /\
    c_label t1 = c_label t2.
Proof.
  exists (mkcfg [5] false [[-1]; [1]]), (init (mkcfg [5] false [[-1]; [1]])), [0; 2; 1; 0; 2; 4].
  do 2 eexists. exists 4%nat. do 2 eexists.
  split; [split; [discriminate|split; [repeat constructor; discriminate|split; [reflexivity|]]]; intros d Hd; simpl in Hd;
    repeat (destruct Hd as [<-|Hd]; [split; [reflexivity|repeat constructor; unfold big; lia]|]); tauto|].
  split; [reflexivity|]. split; [split; [discriminate|simpl; unfold pixel; simpl; intros; lia]|].
  split; [instantiate (1 := [0; 1; 2; 4; 5]); vm_compute; reflexivity|].
  split; [simpl; auto 7|]. split; [vm_compute; reflexivity|]. split; [vm_compute; reflexivity|].
  reflexivity.
Qed.
Print Assumptions C11_add_sequence_reports_more_refuted.

(** What is true: a reported position started or merged a cluster, or revisits a pixel that
    was labelled already ... *)
Theorem C11_reports_changes_or_revisits_partial :
  forall asrt g ops s outs l, wf g -> Forall (legal (g_shape g)) ops -> run asrt g ops = Ok (s, outs) ->
  legal (g_shape g) (AddSequence l) ->
  exists s2 ret, add_sequence asrt g s l = Ok (s2, ret ++ [lenZ l]) /\
    forall k t1 t2, (k < length l)%nat -> add_points asrt g s (firstn k l) = Ok t1 ->
      add_points asrt g s (firstn (S k) l) = Ok t2 ->
      (nclusters (c_label t2) <> nclusters (c_label t1) -> In (Z.of_nat k) ret) /\
      (In (Z.of_nat k) ret -> nclusters (c_label t2) <> nclusters (c_label t1) \/ zn (c_label t1) (nth k l 0) <> 0).
Proof. exact run_sequence_why. Qed.
Print Assumptions C11_reports_changes_or_revisits_partial.

(** ... so the report is exact when all pixels are different and new. *)
Theorem C11_reports_exactly_changes_partial :
  forall asrt g ops s outs l, wf g -> Forall (legal (g_shape g)) ops -> run asrt g ops = Ok (s, outs) ->
  legal (g_shape g) (AddSequence l) -> NoDup l -> (forall p, In p l -> zn (c_label s) p = 0) ->
  exists s2 ret, add_sequence asrt g s l = Ok (s2, ret ++ [lenZ l]) /\
    forall k t1 t2, (k < length l)%nat -> add_points asrt g s (firstn k l) = Ok t1 ->
      add_points asrt g s (firstn (S k) l) = Ok t2 ->
      (In (Z.of_nat k) ret <-> nclusters (c_label t2) <> nclusters (c_label t1)).
Proof. exact run_sequence_exact. Qed.
Print Assumptions C11_reports_exactly_changes_partial.

(** 7 and 2 start a cluster, 1 and 5 join the second, 8 merges the two. *)
Example C11_case : exists s outs s2, run true ex_g [AddPoints [3]] = Ok (s, outs) /\
  legal (g_shape ex_g) (AddSequence [7; 2; 1; 5; 8]) /\ NoDup [7; 2; 1; 5; 8] /\
  (forall p, In p [7; 2; 1; 5; 8] -> zn (c_label s) p = 0) /\
  add_sequence true ex_g s [7; 2; 1; 5; 8] = Ok (s2, [0; 1; 4] ++ [5]).
Proof.
  do 3 eexists. split; [vm_compute; reflexivity|].
  split; [split; [discriminate|simpl; unfold pixel; simpl; intros; lia]|].
  split; [repeat constructor; simpl; intuition discriminate|].
  split; [simpl; intros p Hp; intuition (subst; reflexivity)|].
  vm_compute. reflexivity.
Qed.

(** ** C12: true for rank 1 and 2 ... *)
Theorem C12_default_is_nearest_rank_1_2_partial :
  forall asrt shape per ks kv, (1 <= length shape <= 2)%nat ->
  nearest asrt (length shape) = Ok (ks, kv) ->
  exists g, make_default shape per = Ok g /\ make_kernel asrt shape per ks kv = Ok g.
Proof. exact default_nearest. Qed.
Print Assumptions C12_default_is_nearest_rank_1_2_partial.

Example C12_case : nearest true 2 = Ok ([3; 3], [0;1;0; 1;1;1; 0;1;0]).
Proof. reflexivity. Qed.

(** ... and false for rank 3: two voxels that share an edge. *)
Theorem C12_default_is_nearest_rank_3_refuted :
  exists ks kv g1 g2 s1 s2 o1 o2,
    nearest true 3 = Ok (ks, kv) /\ make_default [2; 2; 1] false = Ok g1 /\
    make_kernel true [2; 2; 1] false ks kv = Ok g2 /\
    run true g1 [AddPoints [0; 3]] = Ok (s1, o1) /\ run true g2 [AddPoints [0; 3]] = Ok (s2, o2) /\
    zn (c_label s1) 0 <> zn (c_label s1) 3 /\ zn (c_label s2) 0 = zn (c_label s2) 3.
Proof.
  do 8 eexists. split; [reflexivity|]. split; [reflexivity|]. split; [reflexivity|].
  split; [vm_compute; reflexivity|]. split; [vm_compute; reflexivity|]. vm_compute. split; [discriminate|auto].
Qed.
Print Assumptions C12_default_is_nearest_rank_3_refuted.

(** What [kernel::nearest(3)] gives instead: clusters of voxels that share a face or an edge. *)
Theorem C12_nearest_rank_3_clusters :
  forall asrt shape per ops, length shape = 3%nat -> good_shape shape -> Forall (legal shape) ops ->
  exists ks kv g s outs, nearest asrt 3 = Ok (ks, kv) /\ make_kernel asrt shape per ks kv = Ok g /\
    run asrt g ops = Ok (s, outs) /\
    forall p q, pixel shape p -> pixel shape q -> added ops p -> added ops q ->
     (zn (c_label s) p = zn (c_label s) q <->
      linked (face_or_edge per shape) (fun x => pixel shape x /\ added ops x) p q).
Proof. exact nearest_3_partition. Qed.
Print Assumptions C12_nearest_rank_3_clusters.

(** Voxels 0 and 3 share an edge, 3 and 4 only a corner. *)
Example C12_case_3 : length [2; 2; 2] = 3%nat /\ good_shape [2; 2; 2] /\
  Forall (legal [2; 2; 2]) [AddPoints [0; 3; 4]; AddPoints [7]] /\
  exists ks kv g s outs, nearest true 3 = Ok (ks, kv) /\ make_kernel true [2; 2; 2] false ks kv = Ok g /\
    run true g [AddPoints [0; 4; 3]] = Ok (s, outs) /\ c_label s = [1;0;0;1; 1;0;0;0] /\
    exists s' outs', run true g [AddPoints [3; 4]] = Ok (s', outs') /\ c_label s' = [0;0;0;1; 2;0;0;0].
Proof.
  split; [reflexivity|]. split; [split; [discriminate|split; [repeat constructor; discriminate|reflexivity]]|].
  split; [repeat (apply Forall_cons; [cbn [legal]; intros p Hp; simpl in Hp; unfold pixel; cbn; lia|]); apply Forall_nil|].
  do 5 eexists. split; [reflexivity|]. split; [reflexivity|]. split; [vm_compute; reflexivity|].
  split; [reflexivity|]. do 2 eexists. split; [vm_compute; reflexivity|]. reflexivity.
Qed.

(** ** C13: true for kernels in range: after labelling [q] and then [p], the two are in one
    cluster exactly when the kernel is set at the displacement from [p] to [q] ... *)
Theorem C13_kernel_entries_are_offsets_partial :
  forall asrt shape per ks kv p q, good_shape shape -> good_kernel shape ks kv ->
  offsets_in_range per shape (set_offset ks kv) -> pixel shape p -> pixel shape q -> p <> q ->
  exists g s outs, make_kernel asrt shape per ks kv = Ok g /\
    run asrt g [AddPoints [q; p]] = Ok (s, outs) /\
    (zn (c_label s) p = zn (c_label s) q <-> kernel_neighbour per shape ks kv p q).
Proof. exact kernel_observed. Qed.
Print Assumptions C13_kernel_entries_are_offsets_partial.

(** Ranks three and up need no range condition at all. *)
Example C13_case : forall per ks kv n0 n1 n2 t, offsets_in_range per (n0 :: n1 :: n2 :: t) (set_offset ks kv).
Proof. intros; exact I. Qed.

(** ... false beyond it: periodic, an offset of -4 on three pixels; ... *)
Theorem C13_long_negative_offset_refuted :
  exists shape ks kv p q g s outs, good_shape shape /\ good_kernel shape ks kv /\
    pixel shape p /\ pixel shape q /\ p <> q /\
    make_kernel true shape true ks kv = Ok g /\ run true g [AddPoints [q; p]] = Ok (s, outs) /\
    kernel_neighbour true shape ks kv p q /\ zn (c_label s) p <> zn (c_label s) q.
Proof.
  exists [3], [9], [1;0;0;0;1;0;0;0;0], 0, 2. do 3 eexists.
  split; [split; [discriminate|split; [repeat constructor; discriminate|reflexivity]]|].
  split; [split; [reflexivity|]; split; [repeat constructor; unfold big; lia|]; split; [reflexivity|];
    intros p _ Hc; rewrite coords1 in Hc; injection Hc as ->; reflexivity|].
  split; [unfold pixel; simpl; lia|]. split; [unfold pixel; simpl; lia|]. split; [discriminate|].
  split; [reflexivity|]. split; [vm_compute; reflexivity|]. split; [|vm_compute; discriminate].
  split; [unfold pixel; simpl; lia|]. split; [unfold pixel; simpl; lia|].
  exists [-4]. split; [|vm_compute; auto].
  exists 0. split; [unfold pixel; simpl; lia|]. split; [vm_compute; discriminate|]. vm_compute. auto.
Qed.
Print Assumptions C13_long_negative_offset_refuted.

(** ... not periodic, a single row, a diagonal kernel: the neighbours in the row are linked
    although the kernel has no entry there. *)
Theorem C13_diagonal_on_one_row_refuted :
  exists shape ks kv p q g s outs, good_shape shape /\ good_kernel shape ks kv /\
    pixel shape p /\ pixel shape q /\ p <> q /\
    make_kernel true shape false ks kv = Ok g /\ run true g [AddPoints [q; p]] = Ok (s, outs) /\
    ~ kernel_neighbour false shape ks kv p q /\ zn (c_label s) p = zn (c_label s) q.
Proof.
  exists [1; 3], [3; 3], [1;0;1; 0;1;0; 1;0;1], 0, 1. do 3 eexists.
  split; [split; [discriminate|split; [repeat constructor; discriminate|reflexivity]]|].
  split; [split; [reflexivity|]; split; [repeat constructor; unfold big; lia|]; split; [reflexivity|];
    intros p _ Hc; rewrite coords2 in Hc; injection Hc as E1 E2;
    pose proof (Z.div_mod p 3 ltac:(lia)); change (3 / 2) with 1 in *; assert (p = 4) as -> by lia; reflexivity|].
  split; [unfold pixel; simpl; lia|]. split; [unfold pixel; simpl; lia|]. split; [discriminate|].
  split; [reflexivity|]. split; [vm_compute; reflexivity|]. split; [|vm_compute; reflexivity].
  intros (_ & _ & d & (k & Hk & Hn & HM1) & HM2).
  change (coords [1; 3] 0) with [0; 0] in HM2. change (coords [1; 3] 1) with [0; 1] in HM2.
  change (centre [3; 3]) with [1; 1] in HM1. rewrite coords2 in HM1.
  destruct d as [|d0 [|d1 [|d2 d]]]; cbn [moved] in HM1, HM2; try tauto.
  destruct HM1 as (A & B & _), HM2 as (C & D & _).
  pose proof (Z.div_mod k 3 ltac:(lia)). assert (k = 5) as -> by lia. apply Hn. reflexivity.
Qed.
Print Assumptions C13_diagonal_on_one_row_refuted.

(** ** C14: false.  A kernel that only looks to the right. *)
Theorem C14_order_independence_any_kernel_refuted :
  exists g s1 s2 o1 o2, make_kernel true [3] false [3] [0;1;1] = Ok g /\ wf g /\
    run true g [AddPoints [0; 1]] = Ok (s1, o1) /\ run true g [AddPoints [1; 0]] = Ok (s2, o2) /\
    zn (c_label s1) 0 <> zn (c_label s1) 1 /\ zn (c_label s2) 0 = zn (c_label s2) 1.
Proof.
  do 5 eexists. split; [reflexivity|].
  split; [split; [discriminate|split; [repeat constructor; discriminate|split; [reflexivity|]]]; intros d Hd; simpl in Hd;
    repeat (destruct Hd as [<-|Hd]; [split; [reflexivity|repeat constructor; unfold big; vm_compute; auto]|]); tauto|].
  split; [vm_compute; reflexivity|]. split; [vm_compute; reflexivity|]. vm_compute. split; [discriminate|auto].
Qed.
Print Assumptions C14_order_independence_any_kernel_refuted.

(** What is true for every kernel in range, symmetric or not: clusters are the chains of pixels
    in which, of each two consecutive ones, the one added last has the other as a neighbour. *)
Theorem C14_partition_any_kernel_partial :
  forall asrt g ops, wf g -> in_range g -> Forall (legal (g_shape g)) ops ->
  exists s outs, run asrt g ops = Ok (s, outs) /\
    forall p q, pixel (g_shape g) p -> pixel (g_shape g) q ->
      (zn (c_label s) p <> 0 <-> In p (sequence ops)) /\
      (In p (sequence ops) -> In q (sequence ops) ->
        (zn (c_label s) p = zn (c_label s) q <->
         linked (joined (g_per g) (g_shape g) (g_dx g) (sequence ops)) (fun x => In x (sequence ops)) p q)).
Proof. exact any_partition. Qed.
Print Assumptions C14_partition_any_kernel_partial.

Example C14_case : exists g s o, make_kernel true [4] false [3] [0;1;1] = Ok g /\
  run true g [AddPoints [2; 0]; Prune; AddPoints [1; 3]] = Ok (s, o) /\ c_label s = [2; 1; 1; 3] /\
  sequence [AddPoints [2; 0]; Prune; AddPoints [1; 3]] = [2; 0; 1; 3] /\
  neighbour (g_per g) (g_shape g) (g_dx g) 1 2 /\ earlier [2; 0; 1; 3] 2 1.
Proof.
  do 3 eexists. split; [reflexivity|]. split; [vm_compute; reflexivity|]. split; [reflexivity|]. split; [reflexivity|].
  split.
  - split; [unfold pixel; simpl; lia|]. split; [unfold pixel; simpl; lia|]. exists [1]. split; [simpl; auto|].
    vm_compute. auto.
  - exists [2; 0], [3]. simpl. intuition discriminate.
Qed.

(** ** C15: false.  Adjacent pixels of different non-zero value get one label. *)
Theorem C15_islands_of_equal_value_refuted :
  exists shape img lab, good_shape shape /\ clusters true shape img false = Ok lab /\
    face_neighbour false shape 0 1 /\ zn img 0 <> zn img 1 /\ zn img 0 <> 0 /\ zn img 1 <> 0 /\
    zn lab 0 = zn lab 1.
Proof.
  exists [2], [1; 2], [1; 1].
  split; [split; [discriminate|split; [repeat constructor; discriminate|reflexivity]]|].
  split; [reflexivity|]. split; [|vm_compute; intuition discriminate].
  split; [unfold pixel; simpl; lia|]. split; [unfold pixel; simpl; lia|]. vm_compute. auto.
Qed.
Print Assumptions C15_islands_of_equal_value_refuted.

(** What is true: if pixels of different non-zero value never touch, a cluster is an island of
    equal value: the pixels that are linked to [p] through pixels of the value of [p]. *)
Theorem C15_islands_of_equal_value_partial :
  forall asrt shape img per, good_shape shape -> (length shape <= 3)%nat -> lenZ img = zprod shape ->
  (forall p q, face_neighbour per shape p q -> zn img p <> 0 -> zn img q <> 0 -> zn img p = zn img q) ->
  exists lab, clusters asrt shape img per = Ok lab /\
    (forall p, pixel shape p -> (zn lab p = 0 <-> zn img p = 0)) /\
    forall p q, pixel shape p -> pixel shape q -> zn img p <> 0 ->
      (zn lab p = zn lab q <->
       linked (face_neighbour per shape) (fun x => pixel shape x /\ zn img x = zn img p) p q).
Proof. exact islands. Qed.
Print Assumptions C15_islands_of_equal_value_partial.

Example C15_case : good_shape [5] /\ lenZ [7; 7; 0; 4; 4] = zprod [5] /\
  (forall p q, face_neighbour false [5] p q -> zn [7; 7; 0; 4; 4] p <> 0 -> zn [7; 7; 0; 4; 4] q <> 0 ->
     zn [7; 7; 0; 4; 4] p = zn [7; 7; 0; 4; 4] q) /\
  clusters true [5] [7; 7; 0; 4; 4] false = Ok [1; 1; 0; 2; 2].
Proof.
  split; [split; [discriminate|split; [repeat constructor; discriminate|reflexivity]]|].
  split; [reflexivity|]. split; [|reflexivity].
  intros p q (Hp & Hq & F). rewrite !coords1 in F. unfold pixel in Hp, Hq. cbn in Hp, Hq, F.
  assert (P : p = 0 \/ p = 1 \/ p = 2 \/ p = 3 \/ p = 4) by lia.
  assert (Q : q = p + 1 \/ q = p - 1) by tauto.
  destruct P as [->|[->|[->|[->| ->]]]]; destruct Q as [->| ->]; vm_compute; try tauto; try congruence; lia.
Qed.

(** ** C51: [kernel::nearest] is exactly the pixel and its face neighbours in rank 1 and 2 ... *)
Theorem C51_nearest_is_face_neighbours_partial :
  forall asrt ndim, (1 <= ndim <= 2)%nat ->
  exists kv, nearest asrt ndim = Ok (repeat 3 ndim, kv) /\ lenZ kv = zprod (repeat 3 ndim) /\
    forall p c, pixel (repeat 3 ndim) p -> coords (repeat 3 ndim) c = repeat 1 ndim ->
      pixel (repeat 3 ndim) c ->
      (zn kv p = 0 \/ zn kv p = 1) /\
      (zn kv p <> 0 <-> p = c \/ face_neighbour false (repeat 3 ndim) c p).
Proof. exact nearest_faces. Qed.
Print Assumptions C51_nearest_is_face_neighbours_partial.

(** ... but in rank 3 it also has the twelve edge neighbours. *)
Theorem C51_nearest_rank_3_refuted :
  exists kv, nearest true 3 = Ok ([3; 3; 3], kv) /\ coords [3; 3; 3] 13 = [1; 1; 1] /\
    coords [3; 3; 3] 1 = [0; 0; 1] /\ zn kv 1 = 1 /\ ~ face_neighbour false [3; 3; 3] 13 1 /\
    zsum kv = 19.
Proof.
  eexists. split; [reflexivity|]. split; [reflexivity|]. split; [reflexivity|]. split; [reflexivity|].
  split; [|reflexivity]. intros (_ & _ & H). vm_compute in H. intuition discriminate.
Qed.
Print Assumptions C51_nearest_rank_3_refuted.

(** ... and nothing else: it is the voxel and those that share a face or an edge with it. *)
Theorem C51_nearest_rank_3_is_edge_neighbours :
  forall asrt, exists kv, nearest asrt 3 = Ok ([3; 3; 3], kv) /\ lenZ kv = 27 /\
  forall p c, pixel [3; 3; 3] p -> pixel [3; 3; 3] c -> coords [3; 3; 3] c = [1; 1; 1] ->
    (zn kv p = 0 \/ zn kv p = 1) /\ (zn kv p <> 0 <-> face_or_edge false [3; 3; 3] c p).
Proof. exact nearest_3_edges. Qed.
Print Assumptions C51_nearest_rank_3_is_edge_neighbours.

(** ** C64 *)
Theorem C64_batching_is_invisible :
  forall asrt1 asrt2 g ops ops1 ops2 s outs, wf g -> Forall (legal (g_shape g)) ops ->
  run asrt1 g ops = Ok (s, outs) ->
  Forall (legal (g_shape g)) ops1 -> Forall (legal (g_shape g)) ops2 ->
  Forall is_add ops1 -> Forall is_add ops2 -> flat_map points_of ops1 = flat_map points_of ops2 ->
  exists s1 s2 o1 o2, run_from asrt1 g s ops1 = Ok (s1, o1) /\ run_from asrt2 g s ops2 = Ok (s2, o2) /\
    c_label s1 = c_label s2.
Proof. exact batches. Qed.
Print Assumptions C64_batching_is_invisible.

Example C64_case :
  flat_map points_of [AddImage [3; 3] [1;0;1; 0;0;0; 0;0;1]; AddPoints [1; 6]] =
  flat_map points_of [AddPoints [0; 2]; AddSequence [8; 1]; AddPoints [6]] /\
  exists s1 o1 s2 o2,
    run true ex_g [AddImage [3; 3] [1;0;1; 0;0;0; 0;0;1]; AddPoints [1; 6]] = Ok (s1, o1) /\
    run true ex_g [AddPoints [0; 2]; AddSequence [8; 1]; AddPoints [6]] = Ok (s2, o2) /\
    c_label s1 = [1;1;1; 0;0;0; 4;0;3] /\ c_label s2 = c_label s1.
Proof. split; [reflexivity|]. do 4 eexists. vm_compute. auto. Qed.
