(** * CollapseAny: [W2c] with the centers of the labels, for every region of interest (proofs only) *)

From Coq Require Import ZArith List Bool Reals QArith Qcanon Lia Permutation.
From Verif Require Import Base BaseLemmas SpecCluster Cluster ClusterGeom Center SpecCenter CenterLabels SpecDilate SpecPath Path Ensemble SpecEnsemble EnsembleSums EnsembleL EnsembleW2c
  Collapse SpecCollapse CollapseProofs CollapseMean CollapseTop CollapseCase CollapseEdge SpecW2cSlide W2cSlide.
Import ListNotations.
Open Scope Z_scope.

Lemma W2c_collapsed_any : forall asrt per var roi shape mode, shapes per roi shape -> walkable mode roi -> shape <> [] ->
  exists paths, paths_of mode (three roi) paths /\
  forall labels f fm, lenZ labels = zprod shape -> is_image shape f -> is_mask shape fm ->
  exists ce vs cs, collapse asrt shape labels per = Ok ce /\
    NoDup vs /\ (forall v, In v vs <-> counts per shape labels v) /\ Forall2 (centre_pixel per shape labels) vs cs /\
    let total := collected per roi shape paths (i_vals fm) cs in
    let call := fresh asrt roi per var (CallW2c (mkimg shape labels) (mkimg shape ce) f (Some fm) mode) in
    ((exists r, pixel roi r /\ total (fun _ _ => 1%Qc) r <> 0%Qc /\ ~ pixel roi (r + slide roi)) -> call = UB) /\
    ((forall r, pixel roi r -> total (fun _ _ => 1%Qc) r <> 0%Qc -> pixel roi (r + slide roi)) ->
     exists e, call = Ok e /\
     (forall r, pixel roi r -> pixel roi (r + slide roi) ->
        first_at e (r + slide roi) = total (value_at per (three shape) (i_vals f)) r /\
        norm_at e (r + slide roi) = total (fun _ _ => 1%Qc) r) /\
     (forall t, pixel roi t -> ~ pixel roi (t - slide roi) -> first_at e t = 0%Qc /\ norm_at e t = 0%Qc) /\
     (forall t, pixel roi t -> result_at e t = Exact (quotient (first_at e t) (norm_at e t)))).
Proof.
  intros asrt per var roi shape mode H1 H2 N.
  destruct (W2c_slides asrt per var roi shape mode H1 H2) as (paths & P & A). exists paths. split; auto.
  intros labels f fm HL HFI HM. assert (HF : Forall (fun n => 1 <= n) shape) by apply H1.
  destruct (collapse_ok asrt per shape labels N HF HL) as (ce & E & LC & B).
  destruct (starts per shape labels N HF HL ce (conj LC B)) as (vs & cs & ND & I & F2 & PM).
  exists ce, vs, cs. do 4 (split; auto). cbv zeta.
  destruct (A (mkimg shape labels) (mkimg shape ce) f fm) as (C1 & C2); auto; try (split; auto; fail).
  cbn [i_vals] in C1, C2. set (due := counted per roi shape labels ce (i_vals fm) paths) in *.
  assert (V : forall r V, sum_over (due r) (fun w => V (snd w) (snd (fst w))) = collected per roi shape paths (i_vals fm) cs V r) by (intros; apply collected_sum; auto).
  assert (M : forall r, zq (lenZ (due r)) = collected per roi shape paths (i_vals fm) cs (fun _ _ => 1%Qc) r) by (intros r; rewrite <- sum_one; apply (V r (fun _ _ => 1%Qc))).
  assert (Z : forall r, collected per roi shape paths (i_vals fm) cs (fun _ _ => 1%Qc) r <> 0%Qc <-> due r <> []).
  { intros r. rewrite <- M, <- zq_0. destruct (due r) as [|w l]; split; intros H.
    - exfalso. apply H. reflexivity.
    - exfalso. apply H. reflexivity.
    - discriminate.
    - intros X. apply zq_inj in X. unfold lenZ in X. cbn [length] in X. lia. }
  split.
  - intros (r & R & T & O). apply C1. exists r. split; auto. split; auto. apply Z. exact T.
  - intros H. destruct C2 as (e & EF & _ & V1 & V2 & V3). { intros r R D. apply H; auto. apply Z. exact D. }
    exists e. split; auto. split; auto. intros r R O. destruct (V1 r R O) as (X & Y). rewrite X, Y, M. split; auto.
Qed.

(** ** Two clusters *)

Lemma line_occurs : forall v, occurs [1; 1; 6] [0;1;1;1;0;2] v -> v = 0 \/ v = 1 \/ v = 2.
Proof. intros v (p & P & <-). apply (dots_occurs (zn [0;1;1;1;0;2] p)). exists p. split; auto. Qed.

Lemma any_case : ~ even_sided [1; 3; 5] /\ slide [1; 3; 5] = -1 /\ shapes false [1; 3; 5] [1; 1; 6] /\ walkable Bresenham [1; 3; 5] /\
  is_image [1; 1; 6] (mkimg [1; 1; 6] (map zq [1;2;3;4;5;6])) /\ is_mask [1; 1; 6] (mkimg [1; 1; 6] [0;0;0;1;0;0]) /\
  counts false [1; 1; 6] [0;1;1;1;0;2] 1 /\ counts false [1; 1; 6] [0;1;1;1;0;2] 2.
Proof.
  split; [intros H; vm_compute in H; intuition discriminate|]. split; [reflexivity|].
  split. { split; auto. split; [cbn; lia|]. split; [repeat (constructor; [lia|]); constructor|]. split; [repeat (constructor; [lia|]); constructor|discriminate]. }
  split; [repeat (constructor; [lia|]); constructor|]. split; [split; reflexivity|]. split. { split; [split; reflexivity|]. intros x IN. cbn in IN. intuition lia. }
  assert (HF : Forall (fun n => 1 <= n) [1; 1; 6]) by (repeat (constructor; [lia|]); constructor).
  set (lab := [0;1;1;1;0;2]).
  assert (O0 : occurs [1; 1; 6] lab 0) by (exists 0; split; [unfold pixel; cbn; lia|reflexivity]).
  assert (O1 : occurs [1; 1; 6] lab 1) by (exists 1; split; [unfold pixel; cbn; lia|reflexivity]).
  assert (O2 : occurs [1; 1; 6] lab 2) by (exists 5; split; [unfold pixel; cbn; lia|reflexivity]).
  assert (C1 : centre_pixel false [1; 1; 6] lab 1 2) by (apply mean_centre; auto; apply mean_pixelb_ok; reflexivity).
  assert (C2 : centre_pixel false [1; 1; 6] lab 2 5) by (apply mean_centre; auto; apply mean_pixelb_ok; reflexivity).
  split.
  - split; [lia|]. split; [split; [exact O1|exists 0; split; [exact O0|lia]]|]. exists 2. split; [exact C1|]. split; [reflexivity|].
    intros w [O _] C. destruct (line_occurs w O) as [->|[->| ->]]; try lia. assert (2 = 5); [|lia]. exact (centre_unique false [1; 1; 6] lab HF eq_refl 2 2 5 O2 C C2).
  - split; [lia|]. split; [split; [exact O2|exists 0; split; [exact O0|lia]]|]. exists 5. split; [exact C2|]. split; [reflexivity|].
    intros w [O _] C. destruct (line_occurs w O) as [->|[->| ->]]; lia.
Qed.
