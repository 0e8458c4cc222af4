(** * Properties_Chord: C150

    What the decay of the lineal path function along an axis counts.  Statements only; [chord],
    [chords], [exactly] are defined in SpecChord, [along] in SpecAxis. *)

From Coq Require Import ZArith QArith Qcanon List Bool Lia.
From Verif Require Import Base SpecCluster SpecDilate Path SpecPath Ensemble SpecEnsemble SpecLineal SpecAxis SpecChord ChordTop.
Import ListNotations.
Open Scope Z_scope.

(** ** C150 The lineal path function gives the chord lengths *)

(** The step from t - 1 to t is the fraction of pixels from which the phase goes on for exactly
    t pixels. *)
Theorem C150_steps : forall asrt per var roi shape f mode,
  shapes per roi shape -> is_image shape f -> coverable mode roi -> (exists n, In n roi /\ 1 < n) ->
  exists e, fresh asrt roi per var (CallL f mode) = Ok e /\
    forall r r' a t, pixel roi r -> pixel roi r' -> (a < length roi)%nat -> 1 <= t ->
      offset roi r = along (length roi) a (t - 1) -> offset roi r' = along (length roi) a t ->
      exists l l', result_at e r = Exact l /\ result_at e r' = Exact l' /\
        (l - l' = zq (lenZ (filter (exactly per shape (i_vals f) a t) (pixels shape))) / zq (zprod shape))%Qc.
Proof. exact L_slope. Qed.
Print Assumptions C150_steps.

(** The change of the step is the number of chords of t pixels, per pixel of the image. *)
Theorem C150_chords : forall asrt per var roi shape f mode,
  shapes per roi shape -> is_image shape f -> coverable mode roi -> (exists n, In n roi /\ 1 < n) ->
  exists e, fresh asrt roi per var (CallL f mode) = Ok e /\
    forall r r' r'' a t, pixel roi r -> pixel roi r' -> pixel roi r'' -> (a < length roi)%nat -> 1 <= t ->
      offset roi r = along (length roi) a (t - 1) -> offset roi r' = along (length roi) a t -> offset roi r'' = along (length roi) a (t + 1) ->
      exists l l' l'', result_at e r = Exact l /\ result_at e r' = Exact l' /\ result_at e r'' = Exact l'' /\
        (l - l' - (l' - l'') = zq (chords per shape (i_vals f) a t) / zq (zprod shape))%Qc.
Proof. exact L_chords. Qed.
Print Assumptions C150_chords.

(** So the steps get no larger: along an axis, away from the centre, L is convex. *)
Theorem C150_convex : forall asrt per var roi shape f mode,
  shapes per roi shape -> is_image shape f -> coverable mode roi -> (exists n, In n roi /\ 1 < n) ->
  exists e, fresh asrt roi per var (CallL f mode) = Ok e /\
    forall r r' r'' a t, pixel roi r -> pixel roi r' -> pixel roi r'' -> (a < length roi)%nat -> 1 <= t ->
      offset roi r = along (length roi) a (t - 1) -> offset roi r' = along (length roi) a t -> offset roi r'' = along (length roi) a (t + 1) ->
      exists l l' l'', result_at e r = Exact l /\ result_at e r' = Exact l' /\ result_at e r'' = Exact l'' /\ (l' - l'' <= l - l')%Qc.
Proof. exact L_convex. Qed.
Print Assumptions C150_convex.

Definition C150_image : img Z := mkimg [2; 7] [1;1;0;1;1;1;0; 0;1;0;0;1;1;1].

(** Along the second axis: stretches of 2 and 3, and of 1 and 3 pixels; in the last row the run
    of three pixels ends at the boundary. *)
Example C150_case :
  shapes false [3; 5] [2; 7] /\ is_image [2; 7] C150_image /\ coverable Bresenham [3; 5] /\ (exists n, In n [3; 5] /\ 1 < n) /\
  offset [3; 5] 7 = along 2 1 0 /\ offset [3; 5] 8 = along 2 1 1 /\ offset [3; 5] 9 = along 2 1 2 /\
  filter (chord false [2; 7] (i_vals C150_image) 1 1) (pixels [2; 7]) = [8] /\
  filter (chord false [2; 7] (i_vals C150_image) 1 2) (pixels [2; 7]) = [0] /\
  filter (chord false [2; 7] (i_vals C150_image) 1 3) (pixels [2; 7]) = [3; 11] /\
  filter (chord true [2; 7] (i_vals C150_image) 0 1) (pixels [2; 7]) = [0; 3; 13] /\
  filter (exactly false [2; 7] (i_vals C150_image) 1 1) (pixels [2; 7]) = [1; 5; 8; 13].
Proof.
  split. { split; [reflexivity|]. split; [cbn; lia|]. split; [repeat (constructor; [lia|]); constructor|]. split; [repeat (constructor; [lia|]); constructor|]. discriminate. }
  split; [split; reflexivity|]. split; [repeat (constructor; [lia|]); constructor|]. split; [exists 5; split; [right; left; reflexivity|lia]|].
  repeat (split; [vm_compute; reflexivity|]). vm_compute. reflexivity.
Qed.
