(** * MiscProofs: proofs about texts and the Python labeller *)

From Coq Require Import String Ascii Decimal DecimalString DecimalN ZArith Bool Lia List.
From Verif Require Import Base BaseLemmas Cluster Misc SpecMisc CenterLabels CirclesProofs SpecCluster ClusterTop.
Import ListNotations.
Open Scope Z_scope.

(** ** unquote *)
Lemma without_filter : forall c s, without c s (filter (fun x => negb (Ascii.eqb x c)) s).
Proof.
  intros c. induction s as [|x s IH]; cbn; [constructor|].
  destruct (Ascii.eqb x c) eqn:E; cbn.
  - apply Ascii.eqb_eq in E. subst. now constructor.
  - apply Ascii.eqb_neq in E. now constructor.
Qed.

Lemma without_unique : forall c s t t', without c s t -> without c s t' -> t = t'.
Proof.
  intros c s t t' H. revert t'. induction H; intros t' H'; inversion H'; subst; try congruence; auto.
  f_equal. auto.
Qed.

Definition kept (c : ascii) (s : list ascii) : list ascii := filter (fun x => negb (Ascii.eqb x c)) s.

Lemma kept_app : forall c a b, kept c (a ++ b) = kept c a ++ kept c b.
Proof. intros. unfold kept. apply filter_app. Qed.

Lemma kept_length : forall c s, (length (kept c s) <= length s)%nat.
Proof. intros c s. unfold kept. induction s as [|x t IH]; cbn; [lia|]. destruct (negb _); cbn; lia. Qed.

Lemma firstn_upd : forall {A} w (x : A) l, (w < length l)%nat -> firstn (S w) (upd w x l) = firstn w l ++ [x].
Proof.
  intros A. induction w; intros x l H; destruct l; cbn in *; try lia; [reflexivity|]. f_equal. apply IHw. lia.
Qed.

Lemma skipn_upd : forall {A} r w (x : A) l, (w < r)%nat -> skipn r (upd w x l) = skipn r l.
Proof.
  intros A. induction r; intros w x l H; [lia|]. destruct w, l; cbn; try reflexivity. apply IHr. lia.
Qed.

Lemma remove_loop : forall c s, exists b w, std_remove c s = Ok (b, Z.of_nat w) /\ firstn w b = kept c s.
Proof.
  intros c s. unfold std_remove, zrange, lenZ. rewrite Z.sub_0_r, Nat2Z.id.
  assert (G : forall k r b w, (r + k = length s)%nat -> length b = length s -> (w <= r)%nat ->
    firstn w b = kept c (firstn r s) -> skipn r b = skipn r s ->
    exists b' w', foldM (fun (a : list ascii * Z) r => x <- vget (fst a) r ;;
           if Ascii.eqb x c then Ok a else b <- vset (fst a) (snd a) x ;; Ok (b, snd a + 1))
         (zseq (Z.of_nat r) k) (b, Z.of_nat w) = Ok (b', Z.of_nat w') /\ firstn w' b' = kept c s).
  { induction k; intros r b w E LB LW F SK.
    - exists b, w. split; [reflexivity|]. rewrite F. f_equal. apply firstn_all2. lia.
    - cbn [zseq foldM fst snd]. rewrite (vget_nth b (Z.of_nat r) c) by (unfold lenZ; lia). rewrite Nat2Z.id. cbn [bind].
      assert (N : nth r b c = nth r s c).
      { rewrite <- (firstn_skipn r b), <- (firstn_skipn r s) at 1. rewrite SK.
        rewrite !app_nth2; rewrite ?firstn_length; try lia. do 2 f_equal; lia. }
      rewrite N. set (x := nth r s c).
      assert (FS : firstn (S r) s = firstn r s ++ [x]).
      { unfold x. clear -E. revert r E. induction s; intros r E; cbn in E; [lia|]. destruct r; cbn; [reflexivity|]. f_equal. apply IHs. lia. }
      assert (SS : forall l : list ascii, skipn (S r) l = tl (skipn r l)).
      { clear. induction r; intros l; destruct l; cbn; auto. apply IHr. }
      replace (Z.of_nat r + 1) with (Z.of_nat (S r)) by lia.
      destruct (Ascii.eqb x c) eqn:Q.
      + apply (IHk (S r) b w); try lia.
        * rewrite FS, kept_app, <- F. unfold kept. cbn. rewrite Q. cbn. now rewrite app_nil_r.
        * rewrite !SS, SK. reflexivity.
      + unfold vset, lenZ. replace (_ || _) with false by lia. cbn [bind]. rewrite Nat2Z.id.
        replace (Z.of_nat w + 1) with (Z.of_nat (S w)) by lia.
        apply (IHk (S r)); try lia.
        * now rewrite upd_length.
        * rewrite firstn_upd by lia. rewrite FS, kept_app, <- F. unfold kept. cbn. rewrite Q. reflexivity.
        * rewrite skipn_upd by lia. rewrite !SS, SK. reflexivity. }
  apply (G (length s) O s O); auto; lia.
Qed.

Lemma version_ok : forall configured, exists t, version configured = Ok t /\
  without """"%char (list_ascii_of_string configured) t.
Proof.
  intro s. unfold version, unquote. destruct (remove_loop """"%char (list_ascii_of_string s)) as (b & w & E & F).
  rewrite E. cbn [bind fst snd]. rewrite Nat2Z.id, F. eexists. split; [reflexivity|]. apply without_filter.
Qed.

(** ** repr *)
Lemma append_assoc : forall a b c, ((a ++ b) ++ c = a ++ b ++ c)%string.
Proof. induction a; intros; cbn; [reflexivity|]. now rewrite IHa. Qed.

Lemma append_nil : forall a, (a ++ "" = a)%string.
Proof. induction a; cbn; congruence. Qed.

Lemma shape_text : forall shape,
  shape_to_string shape = Ok ("[" ++ String.concat ", " (map digits shape) ++ "]")%string.
Proof.
  intro shape. unfold shape_to_string.
  assert (G : forall t pre ret, shape = pre ++ t ->
    foldM (fun ret i => n <- vget shape i ;;
      Ok (ret ++ digits n ++ (if (i <? lenZ shape - 1)%Z then ", " else ""))%string) (zseq (lenZ pre) (length t)) ret
    = Ok (ret ++ String.concat ", " (map digits t))%string).
  { induction t as [|n t IH]; intros pre ret E; cbn [length zseq foldM map String.concat].
    - now rewrite append_nil.
    - rewrite (vget_nth shape (lenZ pre) n) by (rewrite E; unfold lenZ; rewrite app_length; cbn; lia).
      assert (nth (Z.to_nat (lenZ pre)) shape n = n) as ->.
      { rewrite E. unfold lenZ. rewrite Nat2Z.id, app_nth2, Nat.sub_diag by lia. reflexivity. }
      cbn [bind]. replace (lenZ pre + 1) with (lenZ (pre ++ [n])) by (unfold lenZ; rewrite app_length; cbn; lia).
      rewrite (IH (pre ++ [n])) by (rewrite <- app_assoc; exact E). f_equal.
      rewrite E. unfold lenZ at 1 2. rewrite app_length. cbn [length].
      destruct t as [|n' t].
      + assert (Q : (Z.of_nat (length pre) <? Z.of_nat (length pre + S (length (@nil Z))) - 1) = false) by (apply Z.ltb_ge; cbn [length]; lia).
        rewrite Q.
        cbn [map String.concat]. now rewrite !append_nil.
      + assert (Q : (Z.of_nat (length pre) <? Z.of_nat (length pre + S (length (n' :: t))) - 1) = true) by (apply Z.ltb_lt; cbn [length]; lia).
        rewrite Q.
        cbn [map]. now rewrite !append_assoc. }
  unfold zrange. rewrite Z.sub_0_r. unfold lenZ at 2. rewrite Nat2Z.id.
  pose proof (G shape [] "["%string eq_refl) as H. change (lenZ []) with 0 in H. rewrite H. cbn [bind].
  now rewrite append_assoc.
Qed.

Lemma repr_ok : forall python shape, repr python shape =
  Ok ((if python then "GooseEYE.ClusterLabeller" else "GooseEYE::ClusterLabeller") ++ digits (lenZ shape) ++
      " [" ++ String.concat ", " (map digits shape) ++ "]")%string.
Proof. intros python shape. unfold repr. rewrite shape_text. cbn [bind]. now destruct python. Qed.

(** Decimal digits *)
Fixpoint all_digits (s : string) : bool :=
  match s with
  | EmptyString => true
  | String a t => match uint_of_char a (Some Nil) with Some _ => all_digits t | None => false end
  end.

Lemma digits_all : forall d, all_digits (NilEmpty.string_of_uint d) = true.
Proof. induction d; cbn; auto. Qed.

Lemma to_uint_nonnil : forall n, N.to_uint n <> Nil.
Proof.
  intros n H. pose proof (DecimalN.Unsigned.of_to n) as E. rewrite H in E. cbn in E. subst n. discriminate H.
Qed.

Lemma digits_eq : forall x, digits x = NilEmpty.string_of_uint (N.to_uint (Z.to_N x)).
Proof.
  intro x. unfold digits, NilZero.string_of_uint. pose proof (to_uint_nonnil (Z.to_N x)).
  destruct (N.to_uint (Z.to_N x)); congruence.
Qed.

Lemma digits_inj : forall x y, 0 <= x -> 0 <= y -> digits x = digits y -> x = y.
Proof.
  intros x y Hx Hy H. rewrite !digits_eq in H.
  assert (E : N.to_uint (Z.to_N x) = N.to_uint (Z.to_N y)).
  { pose proof (NilEmpty.usu (N.to_uint (Z.to_N x))) as A. rewrite H in A. rewrite NilEmpty.usu in A. congruence. }
  apply DecimalN.Unsigned.to_uint_inj in E. lia.
Qed.

(** Two texts of digits followed by something that is not a digit. *)
Lemma split_digits : forall a b x y, all_digits a = true -> all_digits b = true ->
  (match x with EmptyString => True | String c _ => uint_of_char c (Some Nil) = None end) ->
  (match y with EmptyString => True | String c _ => uint_of_char c (Some Nil) = None end) ->
  (a ++ x = b ++ y)%string -> a = b /\ x = y.
Proof.
  induction a as [|c a IH]; intros b x y Ha Hb Hx Hy H.
  - destruct b as [|c' b]; [auto|]. cbn in H. subst x. cbn [all_digits] in Hb. rewrite Hx in Hb. discriminate.
  - destruct b as [|c' b].
    + cbn in H. subst y. cbn [all_digits] in Ha. rewrite Hy in Ha. discriminate.
    + cbn in H. injection H as <- H. cbn [all_digits] in Ha, Hb. destruct (uint_of_char c (Some Nil)); [|discriminate].
      destruct (IH b x y Ha Hb Hx Hy H) as [-> ->]. auto.
Qed.

Lemma concat_cons : forall n l, String.concat ", " (map digits (n :: l)) =
  (digits n ++ match l with [] => "" | _ => ", " ++ String.concat ", " (map digits l) end)%string.
Proof. intros n [|m l]; cbn [map String.concat]; [now rewrite append_nil|reflexivity]. Qed.

Lemma concat_inj : forall l l', Forall (fun x => 0 <= x) l -> Forall (fun x => 0 <= x) l' -> length l = length l' ->
  (String.concat ", " (map digits l) ++ "]" = String.concat ", " (map digits l') ++ "]")%string -> l = l'.
Proof.
  induction l as [|n l IH]; intros l' F F' L H.
  - destruct l'; [reflexivity|discriminate].
  - destruct l' as [|n' l']; [discriminate|].
    inversion F; subst. inversion F'; subst. rewrite !concat_cons, !append_assoc in H.
    apply split_digits in H.
    + destruct H as [Hd H]. apply digits_inj in Hd; [|assumption..]. subst n'. f_equal.
      destruct l as [|m l], l' as [|m' l']; try (cbn in L; discriminate); [reflexivity|].
      apply IH; try assumption; [cbn in L |- *; lia|].
      cbn [append] in H. injection H as H. exact H.
    + rewrite digits_eq. apply digits_all.
    + rewrite digits_eq. apply digits_all.
    + destruct l; reflexivity.
    + destruct l'; reflexivity.
Qed.

Lemma prefix_inj : forall p a b, (p ++ a = p ++ b)%string -> a = b.
Proof. induction p; cbn; intros a' b H; [assumption|]. injection H as H. auto. Qed.

Lemma repr_inj : forall python shape shape', Forall (fun x => 0 <= x) shape -> Forall (fun x => 0 <= x) shape' ->
  repr python shape = repr python shape' -> shape = shape'.
Proof.
  intros python shape shape' F F' H. rewrite !repr_ok in H. injection H as H. apply prefix_inj in H.
  apply split_digits in H.
  - destruct H as [Hd H]. apply digits_inj in Hd; [|unfold lenZ; lia..]. cbn [append] in H. injection H as H.
    apply concat_inj; auto. unfold lenZ in Hd. lia.
  - rewrite digits_eq. apply digits_all.
  - rewrite digits_eq. apply digits_all.
  - reflexivity.
  - reflexivity.
Qed.

(** ** The Python labeller *)
Lemma names : lookup "ClusterLabeller1p" = Ok (1, true) /\ lookup "ClusterLabeller1" = Ok (1, false) /\
  lookup "ClusterLabeller2p" = Ok (2, true) /\ lookup "ClusterLabeller2" = Ok (2, false) /\
  lookup "ClusterLabeller3p" = Ok (3, true) /\ lookup "ClusterLabeller3" = Ok (3, false).
Proof. vm_compute. repeat split. Qed.

Ltac found := destruct names as (N1 & N2 & N3 & N4 & N5 & N6);
  rewrite ?N1, ?N2, ?N3, ?N4, ?N5, ?N6; cbn [bind]; unfold construct; cbn [fst snd].

Lemma sizes_load_iff : forall shape, sizes_load shape = true <-> Forall (fun n => 0 <= n < 2 ^ 64) shape.
Proof.
  intros shape. unfold sizes_load. rewrite forallb_forall, Forall_forall. split; intros H n Hn; specialize (H n Hn).
  - apply andb_true_iff in H. destruct H. apply Z.leb_le in H. apply Z.ltb_lt in H0. split; assumption.
  - apply andb_true_iff. split; [apply Z.leb_le|apply Z.ltb_lt]; apply H.
Qed.

Lemma sizes_fail : forall shape, ~ Forall (fun n => 0 <= n < 2 ^ 64) shape -> sizes_load shape = false.
Proof. intros shape H. apply not_true_is_false. intros E. apply H. apply sizes_load_iff. exact E. Qed.

Lemma py_default : forall asrt shape per, 1 <= lenZ shape <= 3 -> Forall (fun n => 0 <= n < 2 ^ 64) shape ->
  py_labeller asrt shape per None = make_default shape per.
Proof.
  intros asrt shape per H S. apply sizes_load_iff in S. unfold py_labeller.
  destruct (lenZ shape =? 1) eqn:E1; [|destruct (lenZ shape =? 2) eqn:E2; [|destruct (lenZ shape =? 3) eqn:E3; [|lia]]].
  - destruct per; found; now rewrite E1, S.
  - destruct per; found; now rewrite E2, S.
  - destruct per; found; now rewrite E3, S.
Qed.

Lemma py_kernel : forall asrt shape per ks kv, 1 <= lenZ shape <= 3 -> Forall (fun n => 0 <= n < 2 ^ 64) shape -> lenZ ks = lenZ shape ->
  py_labeller asrt shape per (Some (ks, kv)) = make_kernel asrt shape per ks kv.
Proof.
  intros asrt shape per ks kv H S L. apply sizes_load_iff in S. unfold py_labeller.
  destruct (lenZ shape =? 1) eqn:E1; [|destruct (lenZ shape =? 2) eqn:E2; [|destruct (lenZ shape =? 3) eqn:E3; [|lia]]].
  - destruct per; found; rewrite L, E1, S; reflexivity.
  - destruct per; found; rewrite L, E2, S; reflexivity.
  - destruct per; found; rewrite L, E3, S; reflexivity.
Qed.

Lemma py_throws : forall asrt shape per ks kv,
  (~ 1 <= lenZ shape <= 3 -> forall k, py_labeller asrt shape per k = Throw) /\
  (~ Forall (fun n => 0 <= n < 2 ^ 64) shape -> forall k, py_labeller asrt shape per k = Throw) /\
  (lenZ ks <> lenZ shape -> py_labeller asrt shape per (Some (ks, kv)) = Throw).
Proof.
  intros asrt shape per ks kv. split; [|split].
  - intros H k. unfold py_labeller. replace (lenZ shape =? 1) with false by lia.
    replace (lenZ shape =? 2) with false by lia. replace (lenZ shape =? 3) with false by lia. reflexivity.
  - intros H k. apply sizes_fail in H. unfold py_labeller.
    destruct (lenZ shape =? 1) eqn:E1; [|destruct (lenZ shape =? 2) eqn:E2; [|destruct (lenZ shape =? 3) eqn:E3; [|reflexivity]]].
    + destruct per; found; now rewrite E1, H.
    + destruct per; found; now rewrite E2, H.
    + destruct per; found; now rewrite E3, H.
  - intro H. unfold py_labeller.
    destruct (lenZ shape =? 1) eqn:E1; [|destruct (lenZ shape =? 2) eqn:E2; [|destruct (lenZ shape =? 3) eqn:E3; [|reflexivity]]].
    + destruct per; found; rewrite E1; replace (lenZ ks =? 1) with false by lia; now destruct (sizes_load shape).
    + destruct per; found; rewrite E2; replace (lenZ ks =? 2) with false by lia; now destruct (sizes_load shape).
    + destruct per; found; rewrite E3; replace (lenZ ks =? 3) with false by lia; now destruct (sizes_load shape).
Qed.

(** The classes themselves. *)
Lemma class_name_inj : forall d d' per per', 0 <= d -> 0 <= d' -> class_name d per = class_name d' per' -> d = d' /\ per = per'.
Proof.
  intros d d' per per' A B H. unfold class_name in H. apply prefix_inj in H. apply split_digits in H.
  - destruct H as [H1 H2]. apply digits_inj in H1; [|assumption..]. split; [exact H1|]. destruct per, per'; auto; discriminate.
  - rewrite digits_eq. apply digits_all.
  - rewrite digits_eq. apply digits_all.
  - destruct per; [reflexivity|exact I].
  - destruct per'; [reflexivity|exact I].
Qed.

Lemma class_six : forall d per, 1 <= d <= 3 -> In (d, per) [(1, true); (2, true); (3, true); (1, false); (2, false); (3, false)].
Proof. intros d per H. assert (E : d = 1 \/ d = 2 \/ d = 3) by lia. destruct per; decompose [or] E; subst d; cbn; auto 8. Qed.

Lemma lookup_names : forall name d per, lookup name = Ok (d, per) <-> 1 <= d <= 3 /\ name = class_name d per.
Proof.
  intros name d per. split.
  - unfold lookup. destruct (find _ registered) as [c|] eqn:E; [|discriminate]. intros H. injection H as H. apply find_some in E. destruct E as [I E].
    apply String.eqb_eq in E. subst name. unfold registered in I. apply in_app_or in I. destruct I as [I|I]; apply in_map_iff in I; destruct I as (x & <- & X);
      apply zrange_In in X; cbn in H; injection H as <- <-; (split; [lia|reflexivity]).
  - intros [H ->]. pose proof (class_six d per H) as I. cbn [In] in I. decompose [or] I; try contradiction;
      match goal with E : (_, _) = (d, per) |- _ => injection E as <- <-; vm_compute; reflexivity end.
Qed.

Lemma lookup_total : forall name, (exists d per, 1 <= d <= 3 /\ name = class_name d per) \/ lookup name = Throw.
Proof.
  intros name. destruct (lookup name) as [[d per]| | |] eqn:E.
  - left. exists d, per. apply lookup_names. exact E.
  - right. reflexivity.
  - exfalso. unfold lookup in E. destruct (find _ _); discriminate.
  - exfalso. unfold lookup in E. destruct (find _ _); discriminate.
Qed.

Lemma classes_ok : forall name d per, (lookup name = Ok (d, per) <-> In (name, d, per) python_classes) /\
  ((forall d per, ~ In (name, d, per) python_classes) -> lookup name = Throw).
Proof.
  assert (G : forall name d per, 1 <= d <= 3 /\ name = class_name d per <-> In (name, d, per) python_classes).
  { intros name d per. split.
    - intros [H ->]. assert (E : d = 1 \/ d = 2 \/ d = 3) by lia. destruct per; decompose [or] E; subst d; vm_compute; auto 8.
    - unfold python_classes. cbn [In]. intros H. decompose [or] H; try contradiction;
        match goal with E : (_, _, _) = (name, d, per) |- _ => injection E as <- <- <-; split; [lia|reflexivity] end. }
  intros name d per. split; [rewrite lookup_names; apply G|]. intros H. destruct (lookup_total name) as [(d' & p' & E)|E]; [|exact E].
  exfalso. apply (H d' p'). apply G. exact E.
Qed.

Lemma class_construct : forall asrt d per shape,
  (lenZ shape = d -> Forall (fun n => 0 <= n < 2 ^ 64) shape -> construct asrt (d, per) shape None = make_default shape per) /\
  (forall ks kv, lenZ shape = d -> Forall (fun n => 0 <= n < 2 ^ 64) shape -> lenZ ks = d -> construct asrt (d, per) shape (Some (ks, kv)) = make_kernel asrt shape per ks kv) /\
  (lenZ shape <> d \/ ~ Forall (fun n => 0 <= n < 2 ^ 64) shape -> forall k, construct asrt (d, per) shape k = Throw) /\
  (forall ks kv, lenZ ks <> d -> construct asrt (d, per) shape (Some (ks, kv)) = Throw).
Proof.
  intros asrt d per shape. unfold construct. cbn [fst snd]. split; [|split; [|split]].
  - intros -> S. apply sizes_load_iff in S. now rewrite Z.eqb_refl, S.
  - intros ks kv -> S K. apply sizes_load_iff in S. now rewrite Z.eqb_refl, S, K, Z.eqb_refl.
  - intros [H|H] k; [apply Z.eqb_neq in H; rewrite H; reflexivity|]. apply sizes_fail in H. rewrite H, andb_false_r. reflexivity.
  - intros ks kv H. apply Z.eqb_neq in H. rewrite H. now destruct ((lenZ shape =? d) && sizes_load shape).
Qed.

Lemma size_refuted : exists shape per g, make_default shape per = Ok g /\
  py_size g (init g) <> PyInt (zprod shape).
Proof. exists [3; 4], false. eexists. split; [reflexivity|discriminate]. Qed.

Lemma size_ok : forall asrt g ops, wf g -> Forall (legal (g_shape g)) ops ->
  exists s outs, run asrt g ops = Ok (s, outs) /\ cpp_size s = zprod (g_shape g) /\ cpp_shape g = g_shape g.
Proof.
  intros asrt g ops W L. destruct (run_support asrt g ops W L) as (s & outs & E & N & _).
  exists s, outs. split; [exact E|]. split; [exact N|reflexivity].
Qed.
