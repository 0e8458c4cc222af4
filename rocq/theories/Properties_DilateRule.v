(** * Properties_DilateRule: C109

    Statements only; each is closed by a lemma proved elsewhere. *)

From Coq Require Import ZArith List Bool Lia.
From Verif Require Import Base SpecCluster Array3 Dilate SpecDilate SpecDilateRule DilateRule.
Import ListNotations.
Open Scope Z_scope.

(** ** C109: the whole result of a non-periodic [dilate], whatever the numbers of iterations: [n] passes, [n] the
    largest of them.  In each pass a pixel without label takes the label of the last pixel, in row-major order, that
    reaches it. *)
Theorem C109_passes : forall asrt shape f ks kv iterations, dilatable false shape f ks kv iterations ->
  exists ret n, dilate asrt shape f ks kv iterations false = Ok ret /\
    In n iterations /\ (forall m, In m iterations -> m <= n) /\ grows false shape ks kv iterations n f ret.
Proof. exact rule_ok. Qed.
Print Assumptions C109_passes.

(** ... which leaves nothing open. *)
Theorem C109_passes_determine : forall per shape f ks kv iterations n a b, dilatable per shape f ks kv iterations ->
  grows per shape ks kv iterations n f a -> grows per shape ks kv iterations n f b -> a = b.
Proof. exact grows_unique. Qed.
Print Assumptions C109_passes_determine.

(** Two labels meet half-way, in one pass: the later pixel wins, whatever its label. *)
Example C109_case :
  dilatable false [5] [1;0;2;0;1] [3] [1;1;1] [0; 1; 1] /\
  dilate true [5] [1;0;2;0;1] [3] [1;1;1] [0; 1; 1] false = Ok [1;2;2;1;1].
Proof.
  split; [|vm_compute; reflexivity]. unfold dilatable, image, kernel. cbn [length].
  split; [lia|]. split; [split; [repeat constructor; lia|reflexivity]|]. split; [reflexivity|].
  split; [split; [repeat constructor; lia|reflexivity]|]. split; [simpl; intros; lia|].
  split; [discriminate|]. split; [discriminate|].
  split; [simpl; intros; lia|]. change (lenZ [0;1;1]) with 3. simpl. intros; lia.
Qed.

(** The rule is not that of periodic images: here pixel 2 is reached from pixels 0 and 1, and takes the label of 0. *)
Example C109_periodic_case :
  dilate true [3] [1;2;0] [3] [1;1;1] [0; 1; 1] true = Ok [1;2;1].
Proof. vm_compute. reflexivity. Qed.
