(** * LabelsTypedTop: label utilities with typed values (proofs only) *)

From Coq Require Import ZArith List Bool Lia Sorted.
From Verif Require Import Base BaseLemmas Cluster ClusterInv ClusterRun Labels LabelsProofs SpecLabels LabelsTop DilateTop LabelsTyped SpecTyped.
Import ListNotations.
Open Scope Z_scope.

Lemma two31_ : 2 ^ 31 = 2147483648. Proof. reflexivity. Qed.
Lemma two32_ : 2 ^ 32 = 4294967296. Proof. reflexivity. Qed.
Lemma two63_ : 2 ^ 63 = 9223372036854775808. Proof. reflexivity. Qed.
Lemma two64_ : 2 ^ 64 = 18446744073709551616. Proof. reflexivity. Qed.

Lemma fits_iff : forall t v, fits t v <-> tmin t <= v <= tmax t.
Proof. intros t v. destruct t; unfold fits; cbv [tmin tmax signed bits]; [change (2 ^ (8 - 1)) with 128|change (2 ^ (16 - 1)) with 32768|change (2 ^ (32 - 1)) with (2 ^ 31)|change (2 ^ (64 - 1)) with (2 ^ 63)| | | |]; try lia.
Qed.

Lemma fitsb_iff : forall t v, fitsb t v = true <-> fits t v.
Proof. intros t v. unfold fitsb. rewrite andb_true_iff, fits_iff. lia. Qed.

Lemma tsize : forall t, tmax t - tmin t + 1 = 2 ^ bits t /\ 0 < 2 ^ bits t /\ tmin t <= 0 /\ 127 <= tmax t.
Proof. intros []; vm_compute; repeat split; congruence. Qed.

Lemma conv_fits : forall t v, fits t v -> conv t v = v.
Proof. intros t v H. apply fits_iff in H. destruct (tsize t) as (S & P & _). unfold conv. rewrite Z.mod_small by lia. lia. Qed.

Lemma conv_range : forall t v, fits t (conv t v).
Proof. intros t v. apply fits_iff. destruct (tsize t) as (S & P & _). unfold conv. pose proof (Z.mod_pos_bound (v - tmin t) (2 ^ bits t) P). lia. Qed.

Lemma conv_plus : forall t v, conv t (conv t v + 1) = conv t (v + 1).
Proof.
  intros t v. destruct (tsize t) as (S & P & _). unfold conv. f_equal. replace ((v - tmin t) mod 2 ^ bits t + tmin t + 1 - tmin t) with ((v - tmin t) mod 2 ^ bits t + 1) by lia.
  rewrite Zplus_mod_idemp_l. f_equal. lia.
Qed.

Lemma conv_eq : forall t v w, conv t v = conv t w <-> same_modulo t v w.
Proof.
  intros t v w. destruct (tsize t) as (_ & P & _).
  assert (E : match t with I8 | U8 => 2 ^ 8 | I16 | U16 => 2 ^ 16 | I32 | U32 => 2 ^ 32 | I64 | U64 => 2 ^ 64 end = 2 ^ bits t) by (destruct t; reflexivity).
  unfold same_modulo. rewrite E. unfold conv. split.
  - intros H. assert (H' : (v - tmin t) mod 2 ^ bits t = (w - tmin t) mod 2 ^ bits t) by lia. exists ((v - tmin t) / 2 ^ bits t - (w - tmin t) / 2 ^ bits t).
    pose proof (Z.div_mod (v - tmin t) (2 ^ bits t)). pose proof (Z.div_mod (w - tmin t) (2 ^ bits t)). nia.
  - intros (k & ->). f_equal. replace (w + k * 2 ^ bits t - tmin t) with (w - tmin t + k * 2 ^ bits t) by lia. apply Z.mod_add. lia.
Qed.

(** ** rename *)

Lemma rename_loop_t : forall L A labels m ret f, msorted m -> (forall k, get0 (mfind m k) = f k) ->
  exists m', foldM (fun acc l => let (m, ret) := (acc : zmap * list Z) in
               let (m', v) := mindex m (conv A l) in Ok (m', ret ++ [conv L v])) labels (m, ret) = Ok (m', ret ++ map (fun l => conv L (f (conv A l))) labels).
Proof.
  intros L A. induction labels as [|l labels IH]; intros m ret f HS Hf; cbn [foldM map].
  - exists m. now rewrite app_nil_r.
  - assert (MI : mindex m (conv A l) = match mfind m (conv A l) with Some v => (m, v) | None => (memplace m (conv A l) 0, 0) end) by reflexivity.
    rewrite MI. clear MI. destruct (mfind m (conv A l)) as [v|] eqn:E; rewrite bind_Ok.
    + destruct (IH m (ret ++ [conv L v]) f HS Hf) as (m' & E'). exists m'. rewrite E'. rewrite <- app_assoc. cbn [app].
      rewrite <- (Hf (conv A l)), E. reflexivity.
    + destruct (IH (memplace m (conv A l) 0) (ret ++ [conv L 0]) f) as (m' & E').
      * apply memplace_sorted; auto.
      * intros k. rewrite mfind_memplace by auto. destruct (k =? conv A l) eqn:Ek; [|auto].
        assert (k = conv A l) by lia. subst. rewrite E. rewrite <- Hf, E. auto.
      * exists m'. rewrite E'. rewrite <- app_assoc. cbn [app]. rewrite <- (Hf (conv A l)), E. reflexivity.
Qed.

Lemma rename_t_ok : forall L A asrt labels rows,
  labels_rename_t L A asrt labels (lenZ rows) 2 (flat_rows rows) =
  if asrt && negb (forallb (fun l => isSome (lookup rows (conv A l))) labels) then Throw
  else Ok (map (fun l => conv L (get0 (lookup rows (conv A l)))) labels).
Proof.
  intros L A asrt labels rows. unfold labels_rename_t. cbn [Z.eqb Pos.eqb].
  replace (assertb asrt true) with (Ok tt) by (destruct asrt; auto). rewrite bind_Ok.
  destruct (rename_table_ok rows) as (m & E & HS & H). rewrite E, bind_Ok.
  assert (C : (if asrt then foldM (fun (_ : unit) l => assertb true match mfind m (conv A l) with Some _ => true | None => false end)
                (unique labels) tt else Ok tt) =
     if asrt && negb (forallb (fun l => isSome (lookup rows (conv A l))) labels) then Throw else Ok tt).
  { destruct asrt; auto. rewrite (check_loop (fun l => match mfind m (conv A l) with Some _ => true | None => false end)).
    cbn [andb].
    assert (X : forallb (fun l => match mfind m (conv A l) with Some _ => true | None => false end) (unique labels) =
                forallb (fun l => isSome (lookup rows (conv A l))) labels).
    { apply eq_true_iff_eq. rewrite !forallb_forall. split; intros F x Hx.
      - rewrite <- H. apply F. apply unique_In. auto.
      - rewrite H. apply F. apply unique_In. auto. }
    rewrite X. destruct (forallb _ labels); auto. }
  rewrite C. destruct (asrt && _); [reflexivity|]. rewrite bind_Ok.
  destruct (rename_loop_t L A labels m [] (fun l => get0 (lookup rows l)) HS) as (m' & E'); [intros; now rewrite H|].
  rewrite E', bind_Ok. reflexivity.
Qed.

Lemma fits_zero : forall t, fits t 0.
Proof. intros t. apply fits_iff. destruct (tsize t) as (_ & _ & A & B). lia. Qed.

Lemma lookup_some_In : forall rows k v, lookup rows k = Some v -> In (k, v) rows.
Proof. induction rows as [|[k' v'] rows IH]; intros k v H; cbn [lookup] in H; [discriminate|]. destruct (k =? k') eqn:E; [left; f_equal; [lia|congruence]|right; auto]. Qed.

Lemma typed_rename : forall L A asrt labels rows, (forall l, In l labels -> fits A l) -> (forall k v, In (k, v) rows -> fits L v) ->
  labels_rename_t L A asrt labels (lenZ rows) 2 (table rows) = labels_rename asrt labels (lenZ rows) 2 (table rows).
Proof.
  intros L A asrt labels rows HL HV. rewrite table_flat, rename_t_ok, labels_rename_ok.
  assert (X : forallb (fun l => isSome (lookup rows (conv A l))) labels = forallb (fun l => isSome (lookup rows l)) labels).
  { apply eq_true_iff_eq. rewrite !forallb_forall. split; intros F x Hx; specialize (F x Hx); rewrite conv_fits in * by auto; auto. }
  rewrite X. destruct (asrt && _); auto. f_equal. apply map_ext_in. intros l Hl. rewrite (conv_fits A) by auto.
  destruct (lookup rows l) as [v|] eqn:E; cbn [get0]; [|apply conv_fits, fits_zero]. apply conv_fits. eapply HV. apply lookup_some_In. eauto.
Qed.

Lemma typed_rename_bad : exists L A labels rows l, In l labels /\ fits L l /\ (forall w, ~ In (l, w) rows) /\ (forall k v, In (k, v) rows -> fits A k /\ fits A v) /\
  exists ret, labels_rename_t L A true labels (lenZ rows) 2 (table rows) = Ok ret.
Proof.
  exists I16, U8, [256], [(0, 7)], 256. split; [left; auto|]. split; [cbn; lia|]. split; [intros w [H|[]]; discriminate|].
  split; [intros k v [H|[]]; injection H as <- <-; cbn; lia|]. exists [7]. reflexivity.
Qed.

(** ** prune *)

Definition cm (t : ity) (m : list (Z * Z)) : list (Z * Z) := map (fun r => (fst r, conv t (snd r))) m.

Lemma cm_len : forall t m, lenZ (cm t m) = lenZ m.
Proof. intros. unfold lenZ, cm. rewrite map_length. auto. Qed.

Lemma lookup_cm : forall t m k, lookup (cm t m) k = option_map (conv t) (lookup m k).
Proof. intros t m k. unfold cm. induction m as [|[k' v'] m IH]; cbn [map lookup fst snd option_map]; auto. destruct (k =? k'); auto. Qed.

Lemma map_same : forall (f g : Z -> Z) l, map f l = map g l -> forall x, In x l -> f x = g x.
Proof. induction l as [|a l IH]; intros H x IN; [destruct IN|]. cbn [map] in H. injection H as H1 H2. destruct IN as [<-|IN]; auto. Qed.

Lemma prune_t_ok : forall T asrt labels, (forall l, In l labels -> fits T l) ->
  labels_prune_t T asrt labels = Ok (map (fun l => if l =? 0 then 0 else conv T (rank labels l)) labels).
Proof.
  intros T asrt labels HF. destruct (prune_table_spec (unique labels) (unique_sorted labels)) as [P L].
  pose proof (labels_prune_ok true labels) as PO. unfold labels_prune in PO. cbv zeta in PO. rewrite <- L, labels_rename_ok in PO.
  destruct (forallb (fun l => isSome (lookup (prune_table (unique labels)) l)) labels) eqn:FB; [|discriminate]. cbn [negb andb] in PO. injection PO as PO.
  pose proof (map_same _ _ _ PO) as K. cbn beta in K.
  unfold labels_prune_t. cbv zeta. fold (cm T (prune_table (unique labels))). rewrite <- L, <- (cm_len T), rename_t_ok.
  assert (X : forallb (fun l => isSome (lookup (cm T (prune_table (unique labels))) (conv T l))) labels = true).
  { apply forallb_forall. intros x Hx. rewrite forallb_forall in FB. specialize (FB x Hx). rewrite conv_fits, lookup_cm by auto. destruct (lookup _ x); auto. }
  rewrite X, andb_false_r. f_equal. apply map_ext_in. intros l Hl. specialize (K l Hl). rewrite (conv_fits T l) by auto. rewrite lookup_cm.
  rewrite forallb_forall in FB. specialize (FB l Hl). destruct (lookup (prune_table (unique labels)) l) as [v|]; [|discriminate]. cbn [option_map get0] in *. subst v.
  rewrite (conv_fits T (conv T _)) by apply conv_range. destruct (l =? 0); auto. apply conv_fits, fits_zero.
Qed.

Lemma used_ssorted : forall labels, StronglySorted Z.lt (used labels).
Proof. intros. unfold used. apply filter_ssorted, unique_sorted. Qed.

Lemma used_bound : forall T labels, (forall l, In l labels -> fits T l) -> lenZ (used labels) < 2 ^ bits T.
Proof.
  intros T labels HF. destruct (tsize T) as (S & P & N & M).
  assert (ND : NoDup (0 :: used labels)) by (constructor; [rewrite used_In; tauto|apply ssorted_lt_NoDup, used_ssorted]).
  assert (IN : incl (0 :: used labels) (zrange (tmin T) (tmax T + 1))).
  { intros x [<-|Hx]; apply zrange_In; [lia|]. apply used_In in Hx. destruct Hx as [Hx _]. apply HF, fits_iff in Hx. lia. }
  pose proof (NoDup_incl_length ND IN) as LE. rewrite zrange_length in LE. cbn [length] in LE. unfold lenZ. lia.
Qed.

Lemma rank_bound : forall labels l, In l labels -> l <> 0 -> 1 <= rank labels l <= lenZ (used labels).
Proof.
  intros labels l Hl N. unfold rank. assert (U : In l (used labels)) by (apply used_In; auto). split.
  - assert (X : In l (filter (fun u => u <=? l) (used labels))) by (apply filter_In; split; auto; lia). destruct (filter _ _); [destruct X|]. rewrite lenZ_cons. pose proof (lenZ_nonneg _ l0). lia.
  - generalize (used labels). clear. induction l0 as [|x l0 IH]; cbn [filter]; [lia|]. destruct (x <=? l); rewrite ?lenZ_cons; lia.
Qed.

Lemma rank_strict : forall labels a b, In b labels -> b <> 0 -> a < b -> rank labels a < rank labels b.
Proof.
  intros labels a b Hb Nb AB. unfold rank. assert (U : In b (used labels)) by (apply used_In; auto). pose proof (used_ssorted labels) as SS. revert U SS. generalize (used labels). clear Hb Nb.
  induction l as [|x l IH]; intros U SS; [destruct U|]. apply StronglySorted_inv in SS. destruct SS as [SS F]. rewrite Forall_forall in F. cbn [filter].
  destruct U as [->|U].
  - replace (b <=? a) with false by lia. rewrite Z.leb_refl. rewrite lenZ_cons.
    assert (E : filter (fun u => u <=? a) l = []). { clear -F AB. induction l as [|y l IH]; auto. cbn [filter]. pose proof (F y (or_introl eq_refl)). replace (y <=? a) with false by lia. apply IH. intros z Hz. apply F. right. auto. }
    rewrite E. pose proof (lenZ_nonneg _ (filter (fun u => u <=? b) l)). change (lenZ (@nil Z)) with 0. lia.
  - specialize (IH U SS). destruct (x <=? a) eqn:E1, (x <=? b) eqn:E2; rewrite ?lenZ_cons; lia.
Qed.

Lemma typed_prune_gen : forall T asrt labels, (forall l, In l labels -> fits T l) -> lenZ (used labels) <= tmax T -> labels_prune_t T asrt labels = labels_prune asrt labels.
Proof.
  intros T asrt labels HF HU. rewrite prune_t_ok, labels_prune_ok by auto. f_equal. apply map_ext_in. intros l Hl. destruct (l =? 0) eqn:E; auto.
  apply conv_fits, fits_iff. pose proof (rank_bound labels l Hl ltac:(lia)). destruct (tsize T) as (_ & _ & N & _). lia.
Qed.

Lemma typed_prune_unsigned : forall T asrt labels, (T = U8 \/ T = U16 \/ T = U32 \/ T = U64) -> (forall l, In l labels -> fits T l) ->
  labels_prune_t T asrt labels = labels_prune asrt labels.
Proof.
  intros T asrt labels HT HF. apply typed_prune_gen; auto. pose proof (used_bound T labels HF). destruct (tsize T) as (S & _). assert (tmin T = 0) by (destruct HT as [->|[->|[->| ->]]]; reflexivity). lia.
Qed.

Lemma typed_prune : forall T asrt labels names, (forall l, In l labels -> fits T l) -> (forall l, In l labels -> l <> 0 -> In l names) -> fits T (lenZ names) ->
  labels_prune_t T asrt labels = labels_prune asrt labels.
Proof.
  intros T asrt labels names HF HN HB. apply typed_prune_gen; auto. apply fits_iff in HB.
  assert (I : incl (used labels) names) by (intros x Hx; apply used_In in Hx; apply HN; tauto). pose proof (NoDup_incl_length (ssorted_lt_NoDup _ (used_ssorted labels)) I) as X. unfold lenZ in *. lia.
Qed.

Lemma typed_prune_always : forall T asrt labels, (forall l, In l labels -> fits T l) ->
  exists ret, labels_prune_t T asrt labels = Ok ret /\ lenZ ret = lenZ labels /\
    (forall p, 0 <= p < lenZ labels -> (zn ret p = 0 <-> zn labels p = 0)) /\
    (forall p q, 0 <= p < lenZ labels -> 0 <= q < lenZ labels -> (zn ret p = zn ret q <-> zn labels p = zn labels q)).
Proof.
  intros T asrt labels HF. exists (map (fun l => if l =? 0 then 0 else conv T (rank labels l)) labels). split; [apply prune_t_ok; auto|]. split; [unfold lenZ; rewrite map_length; auto|].
  destruct (tsize T) as (S & P & _). pose proof (used_bound T labels HF) as UB.
  assert (INJ : forall a b, 0 <= a < 2 ^ bits T -> 0 <= b < 2 ^ bits T -> conv T a = conv T b -> a = b).
  { intros a b Ha Hb E. apply conv_eq in E. destruct E as (k & E).
    assert (EB : match T with I8 | U8 => 2 ^ 8 | I16 | U16 => 2 ^ 16 | I32 | U32 => 2 ^ 32 | I64 | U64 => 2 ^ 64 end = 2 ^ bits T) by (destruct T; reflexivity). rewrite EB in E. assert (k = 0) by nia. subst k. lia. }
  set (r := fun l => if l =? 0 then 0 else rank labels l).
  assert (RR : forall l, In l labels -> 0 <= r l < 2 ^ bits T) by (intros l Hl; unfold r; destruct (l =? 0) eqn:E; [lia|]; pose proof (rank_bound labels l Hl ltac:(lia)); lia).
  assert (RC : forall p, 0 <= p < lenZ labels -> zn (map (fun l => if l =? 0 then 0 else conv T (rank labels l)) labels) p = conv T (r (zn labels p))).
  { intros p Hp. rewrite zn_map by auto. unfold r. destruct (zn labels p =? 0); auto. symmetry. apply conv_fits, fits_zero. }
  assert (RI : forall a b, In a labels -> In b labels -> r a = r b -> a = b).
  { intros a b Ha Hb E. unfold r in E. destruct (a =? 0) eqn:Ea, (b =? 0) eqn:Eb; try lia.
    - pose proof (rank_bound labels b Hb ltac:(lia)). lia.
    - pose proof (rank_bound labels a Ha ltac:(lia)). lia.
    - destruct (Z.lt_trichotomy a b) as [L|[L|L]]; auto; [pose proof (rank_strict labels a b Hb ltac:(lia) L)|pose proof (rank_strict labels b a Ha ltac:(lia) L)]; lia. }
  split.
  - intros p Hp. rewrite RC by auto. pose proof (RR _ (zn_In labels p Hp)) as R1. split; intros H.
    + rewrite <- (conv_fits T 0) in H by apply fits_zero. apply INJ in H; [|auto|lia]. unfold r in H. destruct (zn labels p =? 0) eqn:E; [lia|]. pose proof (rank_bound labels _ (zn_In labels p Hp) ltac:(lia)). lia.
    + rewrite H. unfold r. cbn. apply conv_fits, fits_zero.
  - intros p q Hp Hq. rewrite !RC by auto. split; [|intros ->; auto]. intros H. apply INJ in H; [|apply RR, zn_In; assumption|apply RR, zn_In; assumption]. apply RI; [apply zn_In; assumption|apply zn_In; assumption|exact H].
Qed.

Lemma typed_prune_bad : exists T labels ret l, (forall x, In x labels -> fits T x) /\ labels_prune_t T true labels = Ok ret /\ In l ret /\ l < 0.
Proof.
  exists I8, (zseq (-128) 128). eexists. exists (-128). split; [intros x Hx; apply zseq_In in Hx; cbn; lia|]. split; [vm_compute; reflexivity|].
  split; [|lia]. repeat (first [left; reflexivity|right]).
Qed.

(** ** sizes *)

Lemma mfind_cm : forall t m k, mfind (cm t m) k = option_map (conv t) (mfind m k).
Proof. intros t m k. unfold cm. induction m as [|[k' v'] m IH]; cbn [map mfind fst snd option_map]; auto. destruct (k =? k'); auto. Qed.

Lemma memplace_cm : forall t m k v, memplace (cm t m) k (conv t v) = cm t (memplace m k v).
Proof.
  intros t m k v. unfold cm. induction m as [|[k' v'] m IH]; cbn [map memplace fst snd]; auto. destruct (k <? k'); auto. destruct (k =? k'); auto. cbn [map fst snd]. rewrite IH. auto.
Qed.

Lemma mset_cm : forall t m k v, mset (cm t m) k (conv t v) = cm t (mset m k v).
Proof. intros t m k v. unfold cm. induction m as [|[k' v'] m IH]; cbn [map mset fst snd]; auto. destruct (k =? k'); cbn [map fst snd]; auto. rewrite IH. auto. Qed.

Lemma increment_ok : forall t v, wraps t \/ (0 <= v /\ v + 1 <= tmax t) -> increment t (conv t v) = Ok (conv t (v + 1)).
Proof.
  intros t v H. unfold increment, plus_one. destruct (fitsb (promoted t) (conv t v + 1)) eqn:F.
  - rewrite bind_Ok, conv_plus. auto.
  - assert (X : signed (promoted t) = false /\ promoted t = t).
    { pose proof (conv_range t v) as R. apply fits_iff in R. destruct t; try (split; reflexivity); exfalso.
      - assert (G : fitsb I32 (conv I8 v + 1) = true) by (apply fitsb_iff; unfold fits; change (tmin I8) with (-128) in R; change (tmax I8) with 127 in R; lia). change (promoted I8) with I32 in F. congruence.
      - assert (G : fitsb I32 (conv I16 v + 1) = true) by (apply fitsb_iff; unfold fits; change (tmin I16) with (-32768) in R; change (tmax I16) with 32767 in R; lia). change (promoted I16) with I32 in F. congruence.
      - destruct H as [[]|[H1 H2]]. change (promoted I32) with I32 in F. rewrite conv_fits in F by (apply fits_iff; change (tmin I32) with (-2147483648); lia).
        assert (G : fitsb I32 (v + 1) = true) by (apply fitsb_iff, fits_iff; change (tmin I32) with (-2147483648); lia). congruence.
      - destruct H as [[]|[H1 H2]]. change (promoted I64) with I64 in F. rewrite conv_fits in F by (apply fits_iff; change (tmin I64) with (-9223372036854775808); lia).
        assert (G : fitsb I64 (v + 1) = true) by (apply fitsb_iff, fits_iff; change (tmin I64) with (-9223372036854775808); lia). congruence.
      - assert (G : fitsb I32 (conv U8 v + 1) = true) by (apply fitsb_iff; unfold fits; change (tmin U8) with 0 in R; change (tmax U8) with 255 in R; lia). change (promoted U8) with I32 in F. congruence.
      - assert (G : fitsb I32 (conv U16 v + 1) = true) by (apply fitsb_iff; unfold fits; change (tmin U16) with 0 in R; change (tmax U16) with 65535 in R; lia). change (promoted U16) with I32 in F. congruence. }
    destruct X as [-> ->]. rewrite bind_Ok. rewrite (conv_fits t (conv t _)) by apply conv_range. rewrite conv_plus. auto.
Qed.

Lemma conv_one : forall t, conv t 1 = 1.
Proof. intros t. apply conv_fits, fits_iff. destruct (tsize t) as (_ & _ & A & B). lia. Qed.

Lemma sizes_loop_t : forall t labels m, wraps t \/ (forall k v, In (k, v) m -> 0 <= v /\ v + lenZ labels <= tmax t) -> (wraps t \/ lenZ labels <= tmax t) ->
  foldM (fun m l => match mfind m l with None => Ok (memplace m l 1) | Some v => v' <- increment t v ;; Ok (mset m l v') end) labels (cm t m) =
  Ok (cm t (fold_left (fun m l => match mfind m l with None => memplace m l 1 | Some v => mset m l (v + 1) end) labels m)).
Proof.
  intros t. induction labels as [|l labels IH]; intros m H1 H2; cbn [foldM fold_left]; auto. rewrite lenZ_cons in *. pose proof (lenZ_nonneg _ labels).
  rewrite mfind_cm. destruct (mfind m l) as [v|] eqn:E; cbn [option_map].
  - assert (IN : In (l, v) m). { clear -E. induction m as [|[k' v'] m IH]; cbn [mfind] in E; [discriminate|]. destruct (l =? k') eqn:EE; [left; f_equal; [lia|congruence]|right; auto]. }
    rewrite increment_ok, bind_Ok by (destruct H1 as [H1|H1]; [left; auto|right; specialize (H1 _ _ IN); lia]). rewrite mset_cm, bind_Ok. apply IH; [|destruct H2; [auto|right; lia]].
    destruct H1 as [H1|H1]; [left; auto|right]. intros k w Hk.
    assert (X : In (k, w) m \/ w = v + 1). { clear -Hk. induction m as [|[k' v'] m IH]; cbn [mset] in Hk; [destruct Hk|]. destruct (l =? k'); destruct Hk as [Hk|Hk]; try (injection Hk as <- <-); auto; [left; right; auto|left; left; auto|]. destruct (IH Hk); auto. left. right. auto. }
    destruct X as [X| ->]; [specialize (H1 _ _ X)|specialize (H1 _ _ IN)]; lia.
  - rewrite <- (conv_one t) at 1. rewrite memplace_cm, bind_Ok. apply IH; [|destruct H2; [auto|right; lia]]. destruct H2 as [H2|H2]; [left; auto|]. destruct H1 as [H1|H1]; [left; auto|right]. intros k w Hk.
    assert (X : In (k, w) m \/ w = 1). { clear -Hk. induction m as [|[k' v'] m IH]; cbn [memplace] in Hk; [destruct Hk as [Hk|[]]; injection Hk as <- <-; auto|].
      destruct (l <? k'); [destruct Hk as [Hk|Hk]; [injection Hk as <- <-; auto|auto]|]. destruct (l =? k'); auto. destruct Hk as [Hk|Hk]; [left; left; auto|]. destruct (IH Hk); auto. left. right. auto. }
    destruct X as [X| ->]; [specialize (H1 _ _ X)|]; lia.
Qed.

Lemma sizes_t_ok : forall t labels, wraps t \/ lenZ labels <= tmax t -> labels_sizes_impl_t t labels = Ok (cm t (labels_sizes_impl labels)).
Proof. intros t labels H. unfold labels_sizes_impl_t, labels_sizes_impl. apply (sizes_loop_t t labels []); auto. right. intros k v []. Qed.

Lemma occurrences_le : forall l k, 0 <= occurrences l k <= lenZ l.
Proof. induction l as [|x l IH]; intros k; cbn [occurrences]; [cbn; lia|]. rewrite lenZ_cons. specialize (IH k). destruct (x =? k); lia. Qed.

Lemma cm_id : forall t m, (forall k v, In (k, v) m -> fits t v) -> cm t m = m.
Proof. intros t m H. unfold cm. rewrite <- (map_id m) at 2. apply map_ext_in. intros [k v] IN. cbn [fst snd]. rewrite conv_fits; auto. eapply H; eauto. Qed.

Lemma sizes_fit : forall t labels, fits t (lenZ labels) -> cm t (labels_sizes_impl labels) = labels_sizes_impl labels.
Proof.
  intros t labels H. apply cm_id. intros k v IN. destruct (sizes_spec labels) as (_ & S & _). apply S in IN. destruct IN as [_ ->]. apply fits_iff. apply fits_iff in H. pose proof (occurrences_le labels k). destruct (tsize t) as (_ & _ & A & _). lia.
Qed.

Lemma typed_sizes : forall t labels, fits t (lenZ labels) -> labels_sizes_t t labels = Ok (labels_sizes labels).
Proof. intros t labels H. unfold labels_sizes_t. rewrite sizes_t_ok by (right; apply fits_iff in H; lia). rewrite sizes_fit; auto. Qed.

Lemma typed_sizes_names : forall t labels names, fits t (lenZ labels) -> (forall n, In n names -> fits t n) -> labels_sizes_names_t t labels names = Ok (labels_sizes_names labels names).
Proof.
  intros t labels names H HN. unfold labels_sizes_names_t. rewrite sizes_t_ok by (right; apply fits_iff in H; lia). rewrite sizes_fit, bind_Ok by auto. unfold labels_sizes_names. do 2 f_equal.
  generalize (labels_sizes_impl labels, @nil Z). revert HN. induction names as [|n names IH]; intros HN acc; cbn [fold_left]; auto. rewrite conv_fits by (apply HN; left; auto). apply IH. intros x Hx. apply HN. right. auto.
Qed.

Lemma typed_sizes_modulo : forall t labels, wraps t -> exists rows, labels_sizes_t t labels = Ok rows /\ StronglySorted Z.lt (map fst rows) /\
  (forall k, In k (map fst rows) <-> In k labels) /\ forall k c, In (k, c) rows -> fits t c /\ same_modulo t c (occurrences labels k).
Proof.
  intros t labels W. unfold labels_sizes_t. rewrite sizes_t_ok by auto. eexists. split; [reflexivity|]. destruct (sizes_spec labels) as (S1 & S2 & _). unfold labels_sizes in *.
  assert (MF : map fst (cm t (labels_sizes_impl labels)) = map fst (labels_sizes_impl labels)) by (unfold cm; rewrite map_map; reflexivity). rewrite MF. split; auto. split.
  - intros k. rewrite in_map_iff. split.
    + intros ([k' c] & <- & IN). apply S2 in IN. tauto.
    + intros IN. exists (k, occurrences labels k). split; auto. apply S2. auto.
  - intros k c IN. apply in_map_iff in IN. destruct IN as ([k' c'] & E & IN). cbn [fst snd] in E. injection E as <- <-. apply S2 in IN. destruct IN as [_ ->]. split; [apply conv_range|].
    apply conv_eq. apply conv_fits, conv_range.
Qed.

Lemma typed_sizes_bad : exists t labels k, In k labels /\ (forall l, In l labels -> fits t l) /\ labels_sizes_t t labels = Ok [(k, 0)].
Proof. exists U8, (repeat 1 256), 1. split; [left; auto|]. split; [intros l Hl; apply repeat_spec in Hl; subst; cbn; lia|]. vm_compute. reflexivity. Qed.

Lemma typed_sizes_names_bad : exists t labels n, (forall l, In l labels -> fits t l) /\ ~ In n labels /\ labels_sizes_names_t t labels [n] = Ok [1].
Proof. exists U8, [1], 257. split; [intros l [<-|[]]; cbn; lia|]. split; [intros [H|[]]; discriminate|]. vm_compute. reflexivity. Qed.

(** ** reorder *)

Lemma u64_id : forall v, 0 <= v < 2 ^ 64 -> u64 v = v.
Proof. intros v H. unfold u64, two64. apply Z.mod_small. lia. Qed.

Lemma fits_nonneg : forall t v, fits t v -> 0 <= v -> 0 <= v < 2 ^ 64.
Proof. intros t v H P. split; auto. destruct t; unfold fits in H; lia. Qed.

Lemma common_fits : forall a b v, 0 <= v -> fits a v \/ fits b v -> fits (common a b) v.
Proof. intros a b v P H. destruct a, b; cbn; cbn in H; lia. Qed.

Lemma NoDup_bound : forall (l : list Z) n, 0 <= n -> NoDup l -> (forall x, In x l -> 0 <= x <= n) -> lenZ l <= n + 1.
Proof.
  intros l n Hn ND H. assert (I : incl l (zrange 0 (n + 1))) by (intros x Hx; apply zrange_In; specialize (H x Hx); lia). pose proof (NoDup_incl_length ND I) as X. rewrite zrange_length in X. unfold lenZ. lia.
Qed.

Lemma loop_keeps : forall (order : list Z) (P : Z -> Prop) l r r', foldM (fun r i => o <- vget order i ;; vset r o i) l r = Ok r' -> (forall i, In i l -> P i) -> Forall P r -> Forall P r'.
Proof.
  intros order P. induction l as [|i l IH]; intros r r' E H F; cbn [foldM] in E; [congruence|].
  destruct (vget order i) as [o| | |]; cbn [bind] in E; try discriminate. destruct (vset r o i) as [r1| | |] eqn:E1; cbn [bind] in E; try discriminate. eapply IH; eauto; [intros j Hj; apply H; right; auto|].
  unfold vset in E1. destruct ((o <? 0) || (lenZ r <=? o)); [discriminate|]. injection E1 as <-. assert (Pi : P i) by (apply H; left; auto). clear -F Pi. generalize (Z.to_nat o). induction F; intros [|n]; cbn [upd]; auto.
Qed.

Lemma typed_reorder : forall L A asrt labels order, order <> [] -> NoDup order -> (forall x, In x labels <-> In x order) ->
  (forall x, In x labels -> fits L x /\ fits A x /\ 0 <= x < 2 ^ 59) -> (forall x, In x order -> (A = I32 -> x < 2 ^ 31 - 1) /\ (A = U32 -> x < 2 ^ 32 - 1)) ->
  labels_reorder_t L A asrt labels order = labels_reorder asrt labels order.
Proof.
  intros L A asrt labels order NE ND HS HF HM. unfold labels_reorder_t, labels_reorder.
  assert (EU : unique labels = unique order) by (apply ssorted_ext; try apply unique_sorted; intros x; rewrite !unique_In; auto).
  rewrite EU, !eqbl_refl, Z.eqb_refl. replace (assertb asrt true) with (Ok tt) by (destruct asrt; auto). rewrite !bind_Ok.
  destruct (max_element_ok order NE) as (m & E & Hm & Hmax). rewrite E, !bind_Ok. pose proof (HF m (proj2 (HS m) Hm)) as (FL & FA & R).
  assert (P1 : plus_one A m = Ok (m + 1)). { unfold plus_one. assert (X : fitsb (promoted A) (m + 1) = true); [|rewrite X; auto]. apply fitsb_iff. destruct (HM m Hm) as [M1 M2]. destruct A; try specialize (M1 eq_refl); try specialize (M2 eq_refl); clear -FA R M1 M2; cbn in *; lia. }
  rewrite P1, bind_Ok. rewrite u64_id by lia. assert (B : two63 - 1 <? (m + 1) * (bits A / 8) = false).
  { apply Z.ltb_ge. assert (bits A / 8 <= 8 /\ 0 <= bits A / 8) by (destruct A; vm_compute; split; congruence). unfold two63. nia. }
  rewrite B, bind_Ok. replace (m + 1 <? 0) with false by lia. rewrite bind_Ok.
  assert (LA : lenZ order <= tmax A + 1). { apply NoDup_bound; auto; [destruct (tsize A) as (_ & _ & _ & X); lia|]. intros x Hx. pose proof (HF x (proj2 (HS x) Hx)) as (_ & F & X). apply fits_iff in F. lia. }
  assert (LL : lenZ order <= tmax L + 1). { apply NoDup_bound; auto; [destruct (tsize L) as (_ & _ & _ & X); lia|]. intros x Hx. pose proof (HF x (proj2 (HS x) Hx)) as (F & _ & X). apply fits_iff in F. lia. }
  assert (FE : foldM (fun r i => o <- vget order i ;; vset r (u64 o) (conv A i)) (zseq 0 (length order)) (repeat 0 (Z.to_nat (m + 1))) = foldM (fun r i => o <- vget order i ;; vset r o i) (zseq 0 (length order)) (repeat 0 (Z.to_nat (m + 1)))).
  { apply foldM_ext. intros s a Ha. apply zseq_In in Ha. assert (Ra : 0 <= a < lenZ order) by (unfold lenZ; lia). rewrite vget_ok, !bind_Ok by auto. pose proof (HF _ (proj2 (HS _) (zn_In order a Ra))) as (_ & _ & X).
    rewrite u64_id by lia. rewrite conv_fits; auto. apply fits_iff. destruct (tsize A) as (_ & _ & Y & _). lia. }
  rewrite FE. destruct (reorder_loop order (repeat 0 (Z.to_nat (m + 1))) ND) with (n := length order) as (r & E' & Lr & _); auto.
  { intros x Hx. rewrite repeat_lenZ. specialize (Hmax x Hx). pose proof (HF x (proj2 (HS x) Hx)). lia. }
  rewrite E', !bind_Ok. assert (FR : Forall (fits L) r).
  { eapply loop_keeps; [exact E'| |].
    - intros i Hi. apply zseq_In in Hi. apply fits_iff. destruct (tsize L) as (_ & _ & Y & _). unfold lenZ in LL. lia.
    - apply Forall_forall. intros x Hx. apply repeat_spec in Hx. subst. apply fits_zero. }
  assert (IN : forall l, In l labels -> 0 <= l < lenZ r) by (intros l Hl; rewrite Lr, repeat_lenZ; specialize (Hmax l (proj1 (HS l) Hl)); pose proof (HF l Hl); lia).
  rewrite Forall_forall in FR. assert (HU : forall l, In l labels -> u64 l = l) by (intros l Hl; apply u64_id; pose proof (HF l Hl); lia). clear -FR IN HU.
  induction labels as [|l labels IH]; auto. cbn [mapM]. rewrite HU by (left; auto). rewrite vget_ok by (apply IN; left; auto). rewrite !bind_Ok. rewrite conv_fits by (apply FR, zn_In, IN; left; auto).
  rewrite IH; auto; intros x Hx; [apply IN|apply HU]; right; auto.
Qed.

Lemma typed_reorder_bad : exists A labels order, order <> [] /\ NoDup order /\ (forall x, In x labels <-> In x order) /\ (forall x, In x labels -> fits A x /\ 0 <= x) /\
  labels_reorder_t A A true labels order = UB.
Proof.
  exists U32, [4294967295], [4294967295]. split; [discriminate|]. split; [repeat constructor; auto|]. split; [tauto|]. split; [intros x [<-|[]]; cbn; lia|]. vm_compute. reflexivity.
Qed.

(** ** As in Python *)

Lemma typed_python : forall asrt labels, (forall l, In l labels -> fits I64 l) -> lenZ labels < 2 ^ 63 ->
  labels_prune_t I64 asrt labels = labels_prune asrt labels /\ labels_sizes_t I64 labels = Ok (labels_sizes labels) /\
  (forall names, (forall n, In n names -> fits I64 n) -> labels_sizes_names_t I64 labels names = Ok (labels_sizes_names labels names)) /\
  (forall rows, (forall k v, In (k, v) rows -> fits I64 v) -> labels_rename_t I64 I64 asrt labels (lenZ rows) 2 (table rows) = labels_rename asrt labels (lenZ rows) 2 (table rows)).
Proof.
  intros asrt labels HF HL. pose proof (lenZ_nonneg _ labels). assert (FL : fits I64 (lenZ labels)) by (unfold fits; lia).
  split; [apply (typed_prune I64 asrt labels labels); auto|]. split; [apply typed_sizes; auto|]. split; [intros; apply typed_sizes_names; auto|]. intros; apply typed_rename; auto.
Qed.
