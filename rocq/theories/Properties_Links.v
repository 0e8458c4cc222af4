(** * Properties_Links: C149

    C2 and heightheight in terms of S2.  Statements only; [only] is defined in SpecLinks,
    [images], [height_calls] in SpecPositive, [autocorrelations] in SpecRelations. *)

From Coq Require Import ZArith QArith Qcanon List Bool Lia.
From Verif Require Import Base SpecCluster SpecDilate Path Ensemble SpecEnsemble SpecAlgebra SpecRelations SpecPositive SpecLinks Links.
Import ListNotations.
Open Scope Z_scope.

(** ** C149 C2 and heightheight follow from S2 *)

(** C2 is the sum, over the labels, of S2 of the pixels with that label; with any masks. *)
Theorem C149_C2 : forall asrt per var roi shape f g m names,
  shapes per roi shape -> is_image shape f -> is_image shape g -> masks_of shape m ->
  NoDup names -> ~ In 0 names -> (forall x, In x (i_vals f) -> x <> 0 -> In x names) ->
  exists e s, fresh asrt roi per var (CallC2 f g m) = Ok e /\
    (forall v, In v names -> exists ev, fresh asrt roi per var (CallS2 (only v f) (only v g) m) = Ok ev /\
       forall r, pixel roi r -> result_at ev r = Exact (s v r)) /\
    forall r, pixel roi r -> result_at e r = Exact (sum_over names (fun v => s v r)).
Proof. exact C2_of_labels. Qed.
Print Assumptions C149_C2.

(** For periodic images without masks: the square of heightheight is 2 (S2(0) - S2(r)), also for
    ensembles. *)
Theorem C149_heightheight : forall asrt var roi e0 fs, ensemble asrt roi true var = Ok e0 -> images roi fs ->
  exists e e' s, run asrt (autocorrelations fs) e0 = Ok e /\ (forall r, pixel roi r -> result_at e r = Exact (s r)) /\
    run asrt (height_calls fs) e0 = Ok e' /\
    forall r r0, pixel roi r -> pixel roi r0 -> zero_offset (offset roi r0) -> result_at e' r = Root ((1 + 1) * (s r0 - s r))%Qc.
Proof. exact hh_from_S2. Qed.
Print Assumptions C149_heightheight.

(** With any mask, periodic or not: the square of heightheight is S2(f f, 1) + S2(1, f f) - 2 S2(f, f),
    each with the mask for both images. *)
Theorem C149_heightheight_masked : forall asrt per var roi shape f m, shapes per roi shape -> is_image shape f -> mask_of shape m ->
  let sq := each (fun x => x * x)%Qc f in
  let one := each (fun _ => 1%Qc) f in
  let mm := match m with Some m => Some (m, m) | None => None end in
  exists e e1 e2 e3 a b c, fresh asrt roi per var (CallHH f m) = Ok e /\
    fresh asrt roi per var (CallS2 sq one mm) = Ok e1 /\ fresh asrt roi per var (CallS2 one sq mm) = Ok e2 /\ fresh asrt roi per var (CallS2 f f mm) = Ok e3 /\
    forall r, pixel roi r -> result_at e1 r = Exact (a r) /\ result_at e2 r = Exact (b r) /\ result_at e3 r = Exact (c r) /\
      result_at e r = Root (a r + b r - (1 + 1) * c r)%Qc.
Proof. exact HH_by_S2. Qed.
Print Assumptions C149_heightheight_masked.

(** Where the total weight is positive, W2 is the ratio of S2 of the weights with the image to S2 of
    the weights with an image of ones, the mask being that of the second image. *)
Theorem C149_W2 : forall asrt per var roi shape w f m, shapes per roi shape -> is_image shape w -> is_image shape f -> mask_of shape m ->
  let masks := Some (zeros shape, mask1 w m) in
  exists e e1 e2, fresh asrt roi per var (CallW2 w f m) = Ok e /\ fresh asrt roi per var (CallS2 w f masks) = Ok e1 /\
    fresh asrt roi per var (CallS2 w (each (fun _ => 1%Qc) w) masks) = Ok e2 /\
    forall r, pixel roi r -> exists a b c, result_at e r = Exact a /\ result_at e1 r = Exact b /\ result_at e2 r = Exact c /\
      ((0 < c)%Qc -> a = (b / c)%Qc).
Proof. exact W2_by_S2. Qed.
Print Assumptions C149_W2.

Definition C149_f : img Z := mkimg [5] [1; 1; 2; 0; 2].
Definition C149_g : img Z := mkimg [5] [1; 2; 2; 2; 3].
Definition C149_mask : img Z := mkimg [5] [0; 0; 1; 0; 0].
Definition C149_none : img Z := mkimg [5] [0; 0; 0; 0; 0].
Definition C149_images : list (img Qc) := [mkimg [5] (map zq [1; 3; 0; -2; 5]); mkimg [4] (map zq [2; 0; 1; 0])].
Definition C149_h : img Qc := mkimg [5] (map zq [1; 3; 0; -2; 5]).
Definition C149_sums (c : call) : res (list Q) := e <- fresh true [3] false true c ;; Ok (map this (data_first e)).
Definition C149_values (cs : list call) : res (list Q) :=
  e0 <- ensemble true [3] true true ;; e <- run true cs e0 ;;
  Ok (map (fun v => match v with Exact q => this q | Root q => this q | NaN => 0%Q end) (result e)).

Example C149_case :
  shapes false [3] [5] /\ is_image [5] C149_f /\ is_image [5] C149_g /\ masks_of [5] (Some (C149_mask, C149_none)) /\
  NoDup [1; 2] /\ ~ In 0 [1; 2] /\ (forall x, In x (i_vals C149_f) -> x <> 0 -> In x [1; 2]) /\
  C149_sums (CallC2 C149_f C149_g (Some (C149_mask, C149_none))) = Ok (map inject_Z [2; 1; 0]) /\
  C149_sums (CallS2 (only 1 C149_f) (only 1 C149_g) (Some (C149_mask, C149_none))) = Ok (map inject_Z [1; 1; 0]) /\
  C149_sums (CallS2 (only 2 C149_f) (only 2 C149_g) (Some (C149_mask, C149_none))) = Ok (map inject_Z [1; 0; 0]) /\
  is_image [5] C149_h /\ mask_of [5] (Some C149_mask) /\ C149_sums (CallHH C149_h (Some C149_mask)) = Ok (map inject_Z [53; 0; 53]) /\
  C149_sums (CallS2 (each (fun x => x * x)%Qc C149_h) (each (fun _ => 1%Qc) C149_h) (Some (C149_mask, C149_mask))) = Ok (map inject_Z [34; 39; 5]) /\
  C149_sums (CallS2 (each (fun _ => 1%Qc) C149_h) (each (fun x => x * x)%Qc C149_h) (Some (C149_mask, C149_mask))) = Ok (map inject_Z [5; 39; 34]) /\
  C149_sums (CallS2 C149_h C149_h (Some (C149_mask, C149_mask))) = Ok (map inject_Z [-7; 39; -7]) /\
  images [3] C149_images /\ offset [3] 1 = [0] /\
  C149_values (autocorrelations C149_images) = Ok [(-2 # 9)%Q; (44 # 9)%Q; (-2 # 9)%Q] /\
  C149_values (height_calls C149_images) = Ok [(92 # 9)%Q; 0%Q; (92 # 9)%Q].
Proof.
  assert (SH : forall per n, n = 5 \/ n = 4 -> shapes per [3] [n]).
  { intros per n [->| ->]; (unfold shapes; split; [reflexivity|]; split; [cbn; lia|]; split; [repeat constructor; lia|]; split; [repeat constructor; lia|]; intros; vm_compute; intuition discriminate). }
  split; [apply SH; auto|]. split; [split; reflexivity|]. split; [split; reflexivity|].
  split. { cbn. repeat split; intros x H; cbn in H; intuition. }
  split. { repeat constructor; cbn; intuition discriminate. }
  split; [cbn; intuition discriminate|]. split. { cbn. intros x H N. intuition. }
  split; [vm_compute; reflexivity|]. split; [vm_compute; reflexivity|]. split; [vm_compute; reflexivity|].
  split; [split; reflexivity|]. split. { cbn. repeat split; intros x H; cbn in H; intuition. }
  split; [vm_compute; reflexivity|]. split; [vm_compute; reflexivity|]. split; [vm_compute; reflexivity|]. split; [vm_compute; reflexivity|].
  split. { split; [discriminate|]. intros f [<-|[<-|[]]]; (split; [apply SH; auto|split; reflexivity]). }
  split; [reflexivity|]. split; vm_compute; reflexivity.
Qed.

Definition C149_w : img Qc := mkimg [5] (map zq [1; 4; 2; 0; 3]).
Definition C149_result (c : call) : res (list Q) :=
  e <- fresh true [3] false true c ;; Ok (map (fun v => match v with Exact q => this q | Root q => this q | NaN => 0%Q end) (result e)).

(** Each of the first is the second divided by the third. *)
Example C149_W2_case :
  is_image [5] C149_w /\ mask_of [5] (Some C149_mask) /\
  C149_result (CallW2 C149_w C149_h (Some C149_mask)) = Ok [(4 # 9)%Q; (7 # 2)%Q; (-1 # 3)%Q] /\
  C149_result (CallS2 C149_w C149_h (Some (zeros [5], C149_mask))) = Ok [(4 # 3)%Q; 7%Q; (-1 # 3)%Q] /\
  C149_result (CallS2 C149_w (each (fun _ => 1%Qc) C149_w) (Some (zeros [5], C149_mask))) = Ok [3%Q; 2%Q; 1%Q].
Proof.
  split; [split; reflexivity|]. split. { cbn. repeat split; intros x H; cbn in H; intuition. }
  split; [vm_compute; reflexivity|]. split; vm_compute; reflexivity.
Qed.
