(** * Properties_Error: how far the statistics are from the exact ones, for any doubles *)

From Coq Require Import ZArith QArith Qcanon Qreals Reals List Bool Lia Lra.
From Flocq Require Import Core BinarySingleNaN.
From Verif Require Import Base Path Double Ensemble SpecEnsemble EnsembleFloat SpecDouble SpecError.
From Verif Require Import EnsembleFloatTop EnsembleErrorTop.
Import ListNotations.
Open Scope Z_scope.

(** ** C97 Rounding errors of the statistics *)

(** [mean], [S2], [W2c], [heightheight]: both computations have the same outcome, the norm is
    the exact number [n] of terms, and the sum and the average are right up to [n] roundings. *)
Theorem C97_counted_statistics : forall L s M asrt roi per var cs ds,
  s <> S_W2 -> (s = S_mean -> any_order L) -> (s = S_heightheight -> close_squares L) ->
  moderate M -> Forall (fun n => 0 <= n) roi ->
  Forall2 same_call cs ds -> Forall (bounded_call s M) cs -> all_terms roi cs <= 2 ^ 50 ->
  alike (counted_close s M L (all_terms roi cs))
    (e <- ensemble asrt roi per var ;; run asrt cs e) (x <- fensemble asrt roi per var ;; frun L asrt ds x).
Proof. exact counted_error. Qed.
Print Assumptions C97_counted_statistics.

(** [W2]: likewise, relative to the total weight. *)
Theorem C97_weighted_statistics : forall L M asrt roi per var cs ds,
  moderate M -> Forall (fun n => 0 <= n) roi ->
  Forall2 same_call cs ds -> Forall (bounded_call S_W2 M) cs -> all_terms roi cs <= 2 ^ 50 ->
  alike (weighted_close M L (all_terms roi cs))
    (e <- ensemble asrt roi per var ;; run asrt cs e) (x <- fensemble asrt roi per var ;; frun L asrt ds x).
Proof. exact weighted_error. Qed.
Print Assumptions C97_weighted_statistics.

(** A case: an image of which no value is an integer; 0.1 is the [double] 3602879701896397 / 2^55. *)
Definition tenth : double := ddiv (dz 1) (dz 10).
Definition tenth_q : Qc := Q2Qc (3602879701896397 # 36028797018963968).

Lemma C97_tenth : is_number tenth_q tenth /\ (0 < Q2R (this tenth_q) <= 1)%R /\ (bpow radix2 (-400) <= Q2R (this tenth_q))%R.
Proof.
  assert (E : Q2R (this tenth_q) = (3602879701896397 / 36028797018963968)%R) by (unfold tenth_q, Q2Qc; cbn [this]; rewrite (Qeq_eqR _ _ (Qred_correct _)); reflexivity).
  split; [split; [reflexivity|]|].
  - rewrite E. unfold tenth. rewrite <- SF2R_B2SF. replace (B2SF (ddiv (dz 1) (dz 10))) with (SpecFloat.S754_finite false 7205759403792794 (-56)) by (vm_compute; reflexivity).
    cbn [SF2R]. unfold F2R. cbn [Fnum Fexp cond_Zopp]. change (bpow radix2 (-56)) with (/ 72057594037927936)%R. lra.
  - rewrite E. split; [lra|]. apply Rle_trans with (bpow radix2 (-4)); [apply bpow_le; lia|]. change (bpow radix2 (-4)) with (/ 16)%R. lra.
Qed.

Definition C97_f : img Qc := mkimg [3] [tenth_q; 1%Qc; (- tenth_q)%Qc].
Definition C97_x : img double := mkimg [3] [tenth; dz 1; Bopp tenth].
Definition C97_w : img Qc := mkimg [3] [tenth_q; 0%Qc; 1%Qc].
Definition C97_v : img double := mkimg [3] [tenth; dz 0; dz 1].

Example C97_case :
  any_order plain /\ close_squares plain /\ moderate 1 /\
  Forall2 same_call [CallHH C97_f None; CallHH C97_f None] [FCallHH C97_x None; FCallHH C97_x None] /\
  Forall (bounded_call S_heightheight 1) [CallHH C97_f None; CallHH C97_f None] /\
  Forall2 same_call [CallW2 C97_w C97_f None] [FCallW2 C97_v C97_x None] /\
  Forall (bounded_call S_W2 1) [CallW2 C97_w C97_f None] /\
  all_terms [3] [CallHH C97_f None; CallHH C97_f None] = 6 /\
  (e <- (e0 <- ensemble true [3] false false ;; run true [CallHH C97_f None; CallHH C97_f None] e0) ;; Ok (norm e)) = Ok (map zq [4; 6; 4]) /\
  (x <- (x0 <- fensemble true [3] false false ;; frun plain true [FCallHH C97_x None; FCallHH C97_x None] x0) ;; Ok (map (fun v => B2SF v) (fnorm x))) =
    Ok (map (fun z => B2SF (dz z)) [4; 6; 4]).
Proof.
  destruct C97_tenth as (N & (P0 & P1) & PL). destruct plain_close as [Q O]. split; [exact O|]. split; [exact Q|].
  assert (ML : (bpow radix2 (-400) <= 1)%R) by (change 1%R with (bpow radix2 0); apply bpow_le; lia).
  split; [split; [exact ML|change 1%R with (bpow radix2 0); apply bpow_le; lia]|].
  assert (ON : is_number 1%Qc (dz 1)) by (split; [reflexivity|]; unfold Q2R; vm_compute; lra).
  assert (ZN : is_number 0%Qc (dz 0)) by (split; [reflexivity|]; unfold Q2R; vm_compute; lra).
  assert (EN : Q2R (this (- tenth_q)%Qc) = (- Q2R (this tenth_q))%R) by (unfold Qcopp, Q2Qc; cbn [this]; rewrite (Qeq_eqR _ _ (Qred_correct _)), Q2R_opp; reflexivity).
  assert (NN : is_number (- tenth_q)%Qc (Bopp tenth)) by (split; [rewrite is_finite_Bopp; apply N|]; rewrite B2R_Bopp, EN; f_equal; apply N).
  assert (SF : same_image C97_f C97_x) by (split; [reflexivity|]; do 3 (constructor; [assumption|]); constructor).
  assert (SW : same_image C97_w C97_v) by (split; [reflexivity|]; do 3 (constructor; [assumption|]); constructor).
  assert (E1 : Q2R (this 1%Qc) = 1%R) by (unfold Q2R; cbn; lra). assert (E0 : Q2R (this 0%Qc) = 0%R) by (unfold Q2R; cbn; lra).
  assert (BF : bounded 1 C97_f).
  { intros q [<-|[<-|[<-|[]]]]; [rewrite Rabs_pos_eq; lra|rewrite E1, Rabs_R1; lra|rewrite EN, Rabs_Ropp, Rabs_pos_eq; lra]. }
  assert (BW : weights 1 C97_w).
  { intros q [<-|[<-|[<-|[]]]]; [right; split; assumption|left; exact E0|right; rewrite E1; split; [exact ML|lra]]. }
  assert (PF : proper C97_f) by (split; [repeat constructor; lia|reflexivity]).
  assert (PW : proper C97_w) by (split; [repeat constructor; lia|reflexivity]).
  split; [constructor; [split; [exact SF|reflexivity]|constructor; [split; [exact SF|reflexivity]|constructor]]|].
  split; [constructor; [split; [exact PF|split; [exact BF|discriminate]]|constructor; [split; [exact PF|split; [exact BF|discriminate]]|constructor]]|].
  split; [constructor; [split; [exact SW|split; [exact SF|reflexivity]]|constructor]|].
  split; [constructor; [split; [exact PW|split; [exact BW|split; [exact BF|discriminate]]]|constructor]|].
  split; [reflexivity|]. split; vm_compute; reflexivity.
Qed.
