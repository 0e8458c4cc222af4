(** * PathFull: also the mode [full] runs into the overflow of an [int] when it does not end (proofs only). *)

From Coq Require Import ZArith QArith Reals List Bool Lia Lra Psatz.
From Flocq Require Import Core BinarySingleNaN.
From Verif Require Import Base BaseLemmas Path SpecPath SpecPathEnd PathProofs LineProofs PathEnd Double SpecDouble DoubleProofs EnsembleFloatMean PathFloat PathFloatProofs IntArith SpecInt IntProofs PathFloatEnd PathMachine.
Import ListNotations.
Open Scope Z_scope.

Local Notation rnd := (round radix2 (FLT_exp (-1074) 53) ZnearestE).
Local Notation uu := (bpow radix2 (-53)).

(** One axis that moves: nothing is larger than what [T] allows. *)
Record fin (T : R) (g : fdimn) : Prop := {
  n_from : is_int (g_from g);
  n_v : exists v, 1 <= Z.abs v <= 2 ^ 31 /\ g_v g = dz v /\ is_finite (g_x g) = true /\ (Rabs (B2R (g_x g)) <= IZR (Z.abs v) * (T + 8589934592))%R;
  n_next : exists s k, (s = 1 \/ s = -1) /\ g_isign g = s /\ is_finite (g_sign g) = true /\ B2R (g_sign g) = IZR s /\
             g_c g = g_from g + s * k /\ is_finite (g_next g) = true /\ B2R (g_next g) = (IZR (s * (2 * k + 1)) / 2)%R
}.

Lemma rnd_abs : forall r B, (Rabs r <= B)%R -> (Rabs (rnd r) <= B + (B + 1) * uu)%R.
Proof.
  intros r B H. pose proof (rnd_rel r B H). replace (rnd r) with ((rnd r - r) + r)%R by ring. eapply Rle_trans; [apply Rabs_triang|]. lra.
Qed.

Lemma b200' : (1000000000000000000000000000000000000000000000 <= bpow radix2 200)%R.
Proof.
  apply Rle_trans with (bpow radix2 150); [|apply bpow_le; lia]. rewrite p2 by lia. apply IZR_le. vm_compute. discriminate.
Qed.

Lemma uu_value : (uu = / 9007199254740992)%R.
Proof. rewrite (p2n (-53)) by lia. reflexivity. Qed.

Definition big : R := 295147905179352825856. (* 2^68 *)

Lemma fin_dist : forall T g, fin T g -> is_int (g_c g) -> (0 <= T <= big)%R ->
  is_finite (fdist g) = true /\ (Rabs (B2R (fdist g)) <= T + 34359738368)%R.
Proof.
  intros T g [HF (v & Bv & Ev & Fx & Rx) (s & k & Hs & _ & _ & _ & Ec & Fn & Rn)] HC [T0 T1]. unfold big in T1.
  assert (Bk : Z.abs (s * (2 * k + 1)) <= 17179869184) by (unfold is_int in *; destruct Hs as [-> | ->]; lia).
  destruct (dz_value v ltac:(lia)) as [Fv Rv].
  assert (V0 : IZR v <> 0%R) by (intros E; apply eq_IZR in E; subst v; cbn in Bv; lia).
  assert (V1 : (1 <= IZR (Z.abs v) <= 2147483648)%R) by (destruct Bv as [Bv1 Bv2]; apply IZR_le in Bv1, Bv2; split; [exact Bv1|exact Bv2]).
  set (A := IZR (Z.abs v)) in *. assert (EA : Rabs (IZR v) = A) by (unfold A; rewrite abs_IZR; reflexivity).
  assert (Bn : (Rabs (B2R (g_next g)) <= 8589934592)%R).
  { rewrite Rn. unfold Rdiv. rewrite Rabs_mult, (Rabs_pos_eq (/ 2)) by lra. rewrite <- abs_IZR. apply IZR_le in Bk. lra. }
  pose proof b200' as BB. pose proof uu_value as UU.
  assert (Bnx : (Rabs (B2R (g_next g) - B2R (g_x g)) <= A * (T + 17179869184))%R).
  { eapply Rle_trans; [apply Rabs_triang|]. rewrite Rabs_Ropp. nra. }
  assert (AT : (A * (T + 17179869184) <= 2147483648 * 590295810358705651712)%R) by (apply Rmult_le_compat; lra).
  destruct (near_minus (g_next g) (g_x g) Fn Fx) as [F1 R1]; [lra|].
  pose proof (rnd_abs _ _ Bnx) as Bu. rewrite <- R1 in Bu. set (u := B2R (dminus (g_next g) (g_x g))) in *.
  assert (Bu' : (Rabs u <= A * (T + 17179967488))%R) by (rewrite UU in Bu; nra).
  assert (Iv : (Rabs (/ IZR v) * A = 1)%R) by (rewrite Rabs_inv, EA; field; lra).
  assert (Buv : (Rabs (u / IZR v) <= T + 17179967488)%R).
  { unfold Rdiv. rewrite Rabs_mult. pose proof (Rabs_pos (/ IZR v)).
    apply Rle_trans with ((A * (T + 17179967488)) * Rabs (/ IZR v))%R; [apply Rmult_le_compat_r; assumption|].
    replace (A * (T + 17179967488) * Rabs (/ IZR v))%R with ((T + 17179967488) * (Rabs (/ IZR v) * A))%R by ring. rewrite Iv. lra. }
  unfold fdist. rewrite Ev.
  destruct (near_div (dminus (g_next g) (g_x g)) (dz v) F1) as [F2 R2]; [rewrite Rv; exact V0|rewrite Rv; fold u; lra|].
  rewrite Rv in R2. fold u in R2. split; [exact F2|]. rewrite R2. pose proof (rnd_abs _ _ Buv) as Bw. rewrite UU in Bw. lra.
Qed.

Lemma fin_next : forall T T' ft g, fin T g -> is_finite ft = true -> (Rabs (B2R ft) <= T' <= big)%R -> is_int (g_c (fnx ft g)) -> fin T' (fnx ft g).
Proof.
  intros T T' ft g [HF (v & Bv & Ev & Fx & Rx) (s & k & Hs & Es & Fs & Rs & Ec & Fn & Rn)] FF [HT T1] HC. unfold big in T1.
  assert (T0 : (0 <= T')%R) by (pose proof (Rabs_pos (B2R ft)); lra).
  pose proof b200' as BB. pose proof uu_value as UU. split.
  - unfold fnx. destruct (fcrosses ft g); exact HF.
  - exists v. split; [exact Bv|]. split; [unfold fnx; destruct (fcrosses ft g); exact Ev|].
    assert (EX : g_x (fnx ft g) = dplus (dz (g_from g)) (dtimes (dz v) ft)).
    { unfold fnx. destruct (fcrosses ft g); cbn [fmove fcross g_x g_from g_v]; rewrite Ev; reflexivity. }
    rewrite EX. destruct (dz_value v ltac:(lia)) as [Fv Rv]. destruct (dz_value (g_from g)) as [Fa Ra]; [unfold is_int in HF; lia|].
    assert (V1 : (1 <= IZR (Z.abs v) <= 2147483648)%R) by (destruct Bv as [Bv1 Bv2]; apply IZR_le in Bv1, Bv2; split; [exact Bv1|exact Bv2]).
    set (A := IZR (Z.abs v)) in *. assert (EA : Rabs (IZR v) = A) by (unfold A; rewrite abs_IZR; reflexivity).
    assert (Ba : (Rabs (IZR (g_from g)) <= 2147483648)%R) by (rewrite <- abs_IZR; apply IZR_le; unfold is_int in HF; lia).
    assert (Bvt : (Rabs (IZR v * B2R ft) <= A * T')%R) by (rewrite Rabs_mult, EA; apply Rmult_le_compat_l; lra).
    assert (AT : (0 <= A * T' <= 2147483648 * 295147905179352825856)%R) by (split; [apply Rmult_le_pos; lra|apply Rmult_le_compat; lra]).
    destruct (near_times (dz v) ft Fv FF) as [Fp Rp]; [rewrite Rv; lra|]. rewrite Rv in Rp.
    pose proof (rnd_abs _ _ Bvt) as Bp. rewrite <- Rp in Bp. set (p := B2R (dtimes (dz v) ft)) in *.
    assert (Bp' : (Rabs p <= A * (T' + 100000))%R) by (rewrite UU in Bp; nra).
    assert (Bs : (Rabs (IZR (g_from g) + p) <= A * (T' + 2147583648))%R) by (eapply Rle_trans; [apply Rabs_triang|]; nra).
    assert (AT2 : (A * (T' + 2147583648) <= 2147483648 * 590295810358705651712)%R) by (apply Rmult_le_compat; lra).
    destruct (near_plus (dz (g_from g)) (dtimes (dz v) ft) Fa Fp) as [Fy Ry]; [rewrite Ra; fold p; lra|].
    rewrite Ra in Ry. fold p in Ry. split; [exact Fy|]. rewrite Ry. pose proof (rnd_abs _ _ Bs) as Bw. rewrite UU in Bw. nra.
  - exists s, (if fcrosses ft g then k + 1 else k). split; [exact Hs|]. unfold fnx in *.
    destruct (fcrosses ft g); cbn [fmove fcross g_isign g_sign g_c g_from g_next] in *; [|auto 10].
    split; [exact Es|]. split; [exact Fs|]. split; [exact Rs|]. split; [rewrite Ec, Es; ring|].
    assert (Bk : Z.abs (s * (2 * (k + 1) + 1)) <= 17179869184) by (unfold is_int in *; destruct Hs as [-> | ->]; lia).
    assert (EX : (B2R (g_next g) + B2R (g_sign g) = IZR (s * (2 * (k + 1) + 1)) / 2)%R).
    { rewrite Rn, Rs, !mult_IZR, !plus_IZR, !mult_IZR, !plus_IZR. lra. }
    destruct (near_plus (g_next g) (g_sign g) Fn Fs) as [Fp Rp].
    + rewrite EX. unfold Rdiv. rewrite Rabs_mult, (Rabs_pos_eq (/ 2)) by lra. rewrite <- abs_IZR. apply IZR_le in Bk. lra.
    + split; [exact Fp|]. rewrite Rp, EX. apply rnd_half. lia.
Qed.

Lemma argmin_crosses : forall g, factive g = true -> is_finite (fdist g) = true -> fcrosses (fdist g) g = true.
Proof.
  intros g A F. unfold fcrosses. rewrite A. cbn [andb].
  destruct (near_minus (fdist g) (fdist g) F F) as [Fm Rm].
  { rewrite Rminus_diag_eq, Rabs_R0 by reflexivity. apply bpow_ge_0. }
  destruct tolerance_value as (FT & _ & T1 & _).
  rewrite dlt_R; [|unfold dabs; rewrite is_finite_Babs; exact Fm|exact FT].
  unfold dabs. rewrite B2R_Babs, Rm, Rminus_diag_eq, round_0, Rabs_R0 by (reflexivity || apply valid_rnd_N). apply Rlt_bool_true.
  pose proof (bpow_gt_0 radix2 (-20)). lra.
Qed.

Lemma fcross_each_pos : forall tm todo done, (exists g, In g todo /\ fcrosses tm g = true) -> 1 <= lenZ (fcross_each tm done todo).
Proof.
  intros tm. induction todo as [|d todo IH]; intros done (g & Hg & C); [destruct Hg|]. cbn [fcross_each].
  destruct (fcrosses tm d) eqn:E; [rewrite lenZ_cons; pose proof (lenZ_nonneg _ (fcross_each tm (done ++ [fcross d]) todo)); lia|].
  apply IH. destruct Hg as [<-|Hg]; [congruence|eauto].
Qed.

Lemma icross_each_fuel : forall tm todo done n, icross_each tm done todo n <> NoFuel.
Proof.
  intros tm. induction todo as [|d todo IH]; intros done n H; cbn [icross_each] in H; [discriminate|].
  destruct (fcrosses tm d); [|exact (IH _ _ H)]. unfold icross in H.
  destruct (i32_total (g_c d + g_isign d)) as [X|X]; rewrite X in H; cbn [bind] in H; [|discriminate].
  destruct (i32_total (n + 1)) as [Y|Y]; rewrite Y in H; cbn [bind] in H; [|discriminate].
  destruct (icross_each tm _ todo (n + 1)) as [[[l rows] k]| | |] eqn:E; cbn [bind] in H; try discriminate. exact (IH _ _ E).
Qed.

Lemma all_int_in : forall l g, all_int l -> In g l -> is_int (g_c g).
Proof. intros l g H I. unfold all_int, findex in H. rewrite Forall_map, Forall_forall in H. apply H; exact I. Qed.

Lemma full_loop_ends : forall fuel l n, all_int l -> is_int n -> 1 <= n ->
  (forall g, In g l -> factive g = true -> fin (IZR n * 34359738368) g) ->
  iline_loop true fuel l n = NoFuel -> n + Z.of_nat fuel < 2 ^ 31.
Proof.
  induction fuel as [|fuel IH]; intros l n A N N1 HF H; [unfold is_int in N; lia|]. cbn [iline_loop] in H.
  destruct (ftmin l) as [ft|] eqn:EF; [|discriminate].
  assert (NB : (1 <= IZR n <= 2147483648)%R) by (unfold is_int in N; split; apply IZR_le; lia).
  assert (TB : (0 <= IZR n * 34359738368 <= big)%R) by (unfold big; lra).
  assert (ND : forall g, In g l -> factive g = true -> is_finite (fdist g) = true /\ (Rabs (B2R (fdist g)) <= IZR n * 34359738368 + 34359738368)%R).
  { intros g Hg Ag. apply fin_dist; auto. apply (all_int_in l); auto. }
  assert (EX : exists g, In g l /\ factive g = true).
  { unfold ftmin in EF. destruct (filter factive l) as [|g l'] eqn:E; [discriminate|]. exists g. apply filter_In. rewrite E. simpl; auto. }
  destruct (ftmin_spec l) as (ft' & EF' & FF' & (gm & Igm & Agm & Egm') & _); [intros g Hg Ag; apply (ND g Hg Ag)|exact EX|].
  assert (E' : ft' = ft) by congruence. assert (FF : is_finite ft = true) by (rewrite <- E'; exact FF'). assert (Egm : ft = fdist gm) by congruence. clear E' Egm' EF' FF'.
  destruct (ND gm Igm Agm) as [Fm Bm]. assert (Cm : fcrosses ft gm = true) by (rewrite Egm; apply argmin_crosses; assumption).
  destruct (icross_each ft [] l n) as [[[l0 rows] n']| | |] eqn:EC; cbn [bind] in H; try discriminate; [|exact (False_ind _ (icross_each_fuel _ _ _ _ EC))].
  apply icross_each_inv in EC; auto. cbn [app] in EC. destruct EC as (-> & A' & -> & _ & En & N').
  pose proof (fcross_each_pos ft l [] (ex_intro _ gm (conj Igm Cm))) as LP.
  rewrite fnext_map in H. destruct (freached (map (fnx ft) l)); [discriminate|].
  destruct (iline_loop true fuel (map (fnx ft) l) n') eqn:EL; cbn [bind] in H; try discriminate.
  assert (A2 : all_int (map (fnx ft) l)) by (rewrite <- fnext_map; unfold all_int; rewrite findex_move; exact A').
  assert (n' + Z.of_nat fuel < 2 ^ 31); [|lia].
  apply (IH (map (fnx ft) l) n' A2 N' ltac:(lia)); [|exact EL].
  intros g Hg Ag. apply in_map_iff in Hg. destruct Hg as (g0 & <- & Hg0).
  assert (Ag0 : factive g0 = true) by (unfold fnx in Ag; destruct (fcrosses ft g0); exact Ag).
  assert (NB' : (IZR n + 1 <= IZR n' <= 2147483648)%R) by (unfold is_int in N'; rewrite <- plus_IZR; split; apply IZR_le; lia).
  apply fin_next with (IZR n * 34359738368)%R; [apply HF; auto|exact FF|rewrite Egm; unfold big; lra|].
  apply (all_int_in _ _ A2). apply in_map. exact Hg0.
Qed.

Lemma finit_mk : forall xa xb i L, fline_init xa xb i = Ok L -> Forall is_int xa ->
  forall g, In g L -> exists p q, g = fmk p q /\ is_int p /\ is_int (q - p).
Proof.
  induction xa as [|p xa IH]; intros xb i L H F g Hg; cbn [fline_init] in H; [inversion H; subst; destruct Hg|].
  unfold fline_axis in H. destruct (tget xb i) as [q| | |]; cbn [bind] in H; try discriminate.
  destruct (i32 (q - p)) as [z| | |] eqn:E; cbn [bind] in H; try discriminate. apply i32_inv in E. destruct E as [-> E].
  destruct (fline_init xa xb (i + 1)) as [L'| | |] eqn:EL; cbn [bind] in H; try discriminate. inversion H; subst L. inversion F; subst.
  destruct Hg as [<-|Hg]; [exists p, q; auto|]. apply (IH _ _ _ EL); auto.
Qed.

Lemma fin_start : forall p q, is_int p -> is_int (q - p) -> factive (fmk p q) = true -> fin 34359738368 (fmk p q).
Proof.
  intros p q Ip Iv A. assert (B : Z.abs (q - p) <= 2 ^ 53) by (unfold is_int in *; lia).
  assert (NZ : q - p <> 0).
  { unfold factive, fmk in A. cbn [g_v] in A. rewrite deq_dz in A by exact B. apply negb_true_iff, Z.eqb_neq in A. exact A. }
  assert (S1 : Z.sgn (q - p) = 1 \/ Z.sgn (q - p) = -1) by (destruct (Z.sgn_spec (q - p)) as [[? X]|[[? X]|[? X]]]; lia).
  destruct (dz_value (Z.sgn (q - p))) as [F1 R1]; [lia|]. destruct (dz_value p) as [Fp Rp]; [unfold is_int in Ip; lia|].
  assert (ES : g_isign (fmk p q) = Z.sgn (q - p) /\ g_sign (fmk p q) = dz (Z.sgn (q - p)) /\ g_next (fmk p q) = dtimes (dz (Z.sgn (q - p))) half).
  { unfold fmk. cbn [g_isign g_sign g_next]. rewrite deq_dz by exact B. destruct (Z.eqb_spec (q - p) 0) as [E|E]; [contradiction|].
    rewrite sign_value by assumption. split; [apply dint_sign|auto]. }
  destruct ES as (ES1 & ES2 & ES3). pose proof b200 as BB. split.
  - exact Ip.
  - exists (q - p). split; [unfold is_int in Iv; lia|]. split; [reflexivity|]. cbn [fmk g_x]. split; [exact Fp|]. rewrite Rp, <- abs_IZR.
    assert (IZR (Z.abs p) <= 2147483648)%R by (apply IZR_le; unfold is_int in Ip; lia).
    assert (1 <= IZR (Z.abs (q - p)))%R by (apply IZR_le; lia). nra.
  - exists (Z.sgn (q - p)), 0. split; [exact S1|]. rewrite ES1, ES2, ES3. split; [reflexivity|]. split; [exact F1|]. split; [exact R1|].
    split; [cbn [fmk g_c g_from]; lia|]. destruct half_value as [FH RH]. destruct (near_times (dz (Z.sgn (q - p))) half F1 FH) as [F R].
    + rewrite R1, RH, Rabs_mult, <- abs_IZR, (Rabs_pos_eq (/ 2)) by lra.
      assert (IZR (Z.abs (Z.sgn (q - p))) <= 1)%R by (apply IZR_le; lia). lra.
    + split; [exact F|]. rewrite R, R1, RH. change (IZR (Z.sgn (q - p)) * / 2)%R with (IZR (Z.sgn (q - p)) / 2)%R. rewrite rnd_half by lia.
      replace (Z.sgn (q - p) * (2 * 0 + 1)) with (Z.sgn (q - p)) by lia. reflexivity.
Qed.

Lemma ifull_ends : forall fuel x0 x1, Forall is_int x0 -> 2 ^ 31 <= Z.of_nat fuel -> ipath fuel x0 x1 full <> NoFuel.
Proof.
  intros fuel x0 x1 F HF H. cbn [ipath] in H. unfold iline in H. destruct (3 <? lenZ x0); [discriminate|].
  destruct (fline_init x0 x1 0) as [l| | |] eqn:E; cbn [bind] in H; try discriminate; [|exact (fline_init_fuel _ _ _ E)].
  destruct (iline_loop true fuel l 1) eqn:EL; cbn [bind] in H; try discriminate.
  assert (1 + Z.of_nat fuel < 2 ^ 31); [|lia].
  apply (full_loop_ends fuel l 1); [|unfold is_int; lia|lia| |exact EL].
  - unfold all_int. rewrite (fline_init_index _ _ _ _ E). exact F.
  - intros g Hg A. destruct (finit_mk _ _ _ _ E F g Hg) as (p & q & -> & Ip & Iv). rewrite Rmult_1_l. apply fin_start; assumption.
Qed.

Lemma ipath_ends_all : forall fuel x0 x1 mode, Forall is_int x0 -> 2 ^ 31 <= Z.of_nat fuel -> ipath fuel x0 x1 mode <> NoFuel.
Proof. intros fuel x0 x1 [| |] F HF; [apply ipath_ends; auto|apply ipath_ends; auto|apply ifull_ends; auto]. Qed.

Lemma iline_overflows_all : forall fuel x0 x1 mode, mode = actual \/ mode = full ->
  (1 <= length x0 <= 3)%nat -> length x1 = length x0 -> x0 <> x1 ->
  span x0 x1 <= 707 -> Forall (fun c => Z.abs c <= 4096) x0 -> ~ meets_origin x0 x1 ->
  2 ^ 31 <= Z.of_nat fuel -> ipath fuel x0 x1 mode = UB.
Proof.
  intros fuel x0 x1 mode M HL HL' HN HS H0 HT HF. destruct (small_int x0 x1 HL' H0 HS) as [F0 F1].
  destruct M as [-> | ->]; [apply iline_overflows; assumption|].
  destruct (ipath fuel x0 x1 full) as [rows| | |] eqn:E; auto; exfalso.
  - apply iline_iff in E; auto. destruct E as [E _]. rewrite fnever_ends in E by auto. discriminate.
  - cbn [ipath] in E. unfold iline in E. destruct (3 <? lenZ x0); [discriminate|].
    destruct (line_start x0 x1 HL HL' ltac:(lia)) as [_ E2]. rewrite PathFloatProofs.fline_init_eq, E2, !bind_Ok in E.
    destruct (iline_loop _ _ _ _) eqn:EL; cbn [bind] in E; try discriminate. exact (iloop_no_throw _ _ _ _ EL).
  - exact (ifull_ends _ _ _ F0 HF E).
Qed.
