(** * AliasTop: proofs for SpecAlias (C135) *)

From Coq Require Import ZArith List Bool Lia.
From Verif Require Import Base Cluster Alias SpecAlias.
Import ListNotations.
Open Scope Z_scope.

Lemma Ok_inj : forall (A : Type) (a b : A), Ok a = Ok b -> a = b.
Proof. congruence. Qed.

Lemma upd_nth_same : forall (A : Type) (l : list A) n x, (n < length l)%nat -> nth_error (upd n x l) n = Some x.
Proof. induction l; intros [|n] x H; cbn [length upd nth_error] in *; try lia; auto. apply IHl. lia. Qed.

Lemma upd_nth_other : forall (A : Type) (l : list A) n m x, n <> m -> nth_error (upd n x l) m = nth_error l m.
Proof. induction l; intros [|n] [|m] x H; cbn [upd nth_error]; auto; try lia. Qed.

Lemma upd_len : forall (A : Type) (l : list A) n x, length (upd n x l) = length l.
Proof. induction l; intros [|n] x; cbn [upd length]; auto. Qed.

Lemma with_label_id : forall s, with_label s (c_label s) = s.
Proof. destruct s; auto. Qed.

(** Every reachable state: the labels are at address 0, variables that were read point there,
    copies have an address of their own. *)
Definition kinds (p : py) (ks : list bool) : Prop :=
  (0 < length (py_heap p))%nat /\
  length (py_vars p) = length ks /\
  (forall v, nth_error ks v = Some false -> nth_error (py_vars p) v = Some 0%nat) /\
  (forall v a, nth_error ks v = Some true -> nth_error (py_vars p) v = Some a ->
     (0 < a < length (py_heap p))%nat) /\
  (forall v w a, nth_error ks v = Some true -> nth_error ks w = Some true ->
     nth_error (py_vars p) v = Some a -> nth_error (py_vars p) w = Some a -> v = w).

Definition kind_of (o : pyop) : list bool :=
  match o with PRead => [false] | PCopy => [true] | _ => [] end.

Lemma bound_app : forall a b, bound (a ++ b) = bound a ++ bound b.
Proof. induction a as [|[] a IH]; intros; cbn [bound app]; auto; now rewrite IH. Qed.

Lemma calls_app : forall a b, calls (a ++ b) = calls a ++ calls b.
Proof. induction a as [|[] a IH]; intros; cbn [calls app]; auto; now rewrite IH. Qed.

Lemma bound_cons : forall o t, bound (o :: t) = kind_of o ++ bound t.
Proof. destruct o; auto. Qed.

Lemma nth_snoc : forall (A : Type) (l : list A) x v y, nth_error (l ++ [x]) v = Some y ->
  nth_error l v = Some y /\ (v < length l)%nat \/ v = length l /\ y = x.
Proof.
  intros A l x v y H. destruct (Nat.lt_ge_cases v (length l)).
  - left. rewrite nth_error_app1 in H; auto.
  - right. rewrite nth_error_app2 in H by auto. destruct (v - length l)%nat eqn:E.
    + cbn in H. injection H as <-. split; auto. lia.
    + cbn in H. destruct n; discriminate.
Qed.

Lemma step_kinds : forall asrt g p o p' ks, kinds p ks -> pystep asrt g p o = Ok p' ->
  kinds p' (ks ++ kind_of o).
Proof.
  intros asrt g p o p' ks (H0 & HL & HR & HC & HI) H. destruct o as [o| | |v i x]; unfold pystep in H; cbn [kind_of].
  - rewrite app_nil_r. destruct (labeller p) as [s| | |]; cbn [bind] in H; try discriminate.
    destruct (step asrt g s o) as [r| | |]; cbn [bind] in H; try discriminate. apply Ok_inj in H; subst.
    unfold kinds. cbn [py_heap py_vars]. rewrite !upd_len. auto.
  - apply Ok_inj in H; subst. unfold kinds. cbn [py_heap py_vars]. split; auto.
    split; [rewrite !app_length, HL; auto|].
    assert (X : forall v, nth_error (ks ++ [false]) v = Some true -> nth_error ks v = Some true /\ (v < length ks)%nat).
    { intros v Hv. apply nth_snoc in Hv. destruct Hv as [Hv|[_ Hv]]; [auto|discriminate]. }
    split; [|split].
    + intros v Hv. apply nth_snoc in Hv. destruct Hv as [[Hv Hl]|[-> _]].
      * rewrite nth_error_app1 by lia. auto.
      * rewrite <- HL, nth_error_app2, Nat.sub_diag by lia. auto.
    + intros v a Hv. apply X in Hv. destruct Hv as [Hv Hl]. rewrite nth_error_app1 by lia. eauto.
    + intros v w a Hv Hw. apply X in Hv. apply X in Hw. destruct Hv, Hw.
      rewrite !nth_error_app1 by lia. eauto.
  - destruct (deref p 0) as [l| | |]; cbn [bind] in H; try discriminate. apply Ok_inj in H; subst.
    unfold kinds. cbn [py_heap py_vars]. rewrite !app_length. cbn [length].
    split; [lia|]. split; [lia|]. split; [|split].
    + intros v Hv. apply nth_snoc in Hv. destruct Hv as [[Hv Hl]|[_ Hv]]; [|discriminate].
      rewrite nth_error_app1 by lia. auto.
    + intros v a Hv Ha. apply nth_snoc in Hv. destruct Hv as [[Hv Hl]|[-> _]].
      * rewrite nth_error_app1 in Ha by lia. specialize (HC v a Hv Ha). lia.
      * rewrite <- HL, nth_error_app2, Nat.sub_diag in Ha by lia. cbn in Ha. injection Ha as <-. lia.
    + assert (X : forall v, nth_error (py_vars p ++ [length (py_heap p)]) v = Some (length (py_heap p)) ->
                 nth_error (ks ++ [true]) v = Some true -> v = length ks).
      { intros v Ha Hv. apply nth_snoc in Hv. destruct Hv as [[Hv Hl]|[-> _]]; auto.
        rewrite nth_error_app1 in Ha by lia. specialize (HC v _ Hv Ha). lia. }
      intros v w a Hv Hw Ha Hb.
      destruct (Nat.eq_dec a (length (py_heap p))) as [->|N].
      * rewrite (X v), (X w); auto.
      * apply nth_snoc in Ha. apply nth_snoc in Hb. apply nth_snoc in Hv. apply nth_snoc in Hw.
        destruct Ha as [[Ha La]|[_ Ha]]; [|lia]. destruct Hb as [[Hb Lb]|[_ Hb]]; [|lia].
        destruct Hv as [[Hv _]|[-> _]]; [|lia]. destruct Hw as [[Hw _]|[-> _]]; [|lia]. eauto.
  - rewrite app_nil_r. destruct (nth_error (py_vars p) v) as [a|]; [|discriminate].
    destruct (deref p a) as [l| | |]; cbn [bind] in H; try discriminate.
    destruct ((i <? 0) || (lenZ l <=? i)); try discriminate. apply Ok_inj in H; subst.
    unfold kinds. cbn [py_heap py_vars]. rewrite !upd_len. auto.
Qed.

Lemma run_kinds : forall asrt g prog p ks p', kinds p ks -> foldM (pystep asrt g) prog p = Ok p' ->
  kinds p' (ks ++ bound prog).
Proof.
  induction prog as [|o t IH]; intros p ks p' HK H; cbn [foldM] in H.
  - apply Ok_inj in H; subst. cbn [bound]. now rewrite app_nil_r.
  - destruct (pystep asrt g p o) as [q| | |] eqn:E; cbn [bind] in H; try discriminate.
    rewrite bound_cons, app_assoc. eapply IH; eauto. eapply step_kinds; eauto.
Qed.

Lemma init_kinds : forall g, kinds (pyinit g) [].
Proof.
  intros g. unfold kinds, pyinit. cbn [py_heap py_vars length].
  split; [lia|]. split; auto.
  assert (X : forall v (b : bool), nth_error (@nil bool) v = Some b -> False) by (intros [|v] b H; discriminate).
  split; [|split]; intros; exfalso; eauto.
Qed.

(** ** Labels that were read are the current ones *)

Lemma labeller_heap : forall p l, nth_error (py_heap p) 0 = Some l -> now p l.
Proof. intros p l H. exists (with_label (py_st p) l). unfold labeller, deref. rewrite H. auto. Qed.

Lemma read_is_live : forall asrt g prog p v, pyrun asrt g prog = Ok p ->
  nth_error (bound prog) v = Some false -> exists l, variable p v = Some l /\ now p l.
Proof.
  intros asrt g prog p v H Hv. pose proof (run_kinds asrt g prog _ [] p (init_kinds g) H) as HK.
  cbn [app] in HK. destruct HK as (H0 & _ & HR & _). unfold variable. rewrite (HR v Hv).
  destruct (nth_error (py_heap p) 0) as [l|] eqn:E.
  - exists l. split; auto. apply labeller_heap; auto.
  - apply nth_error_None in E. lia.
Qed.

(** ** Copies are kept *)

Lemma copy_kept_step : forall asrt g p o p' ks v l, kinds p ks -> nth_error ks v = Some true ->
  variable p v = Some l -> (forall i x, o <> PWrite v i x) ->
  pystep asrt g p o = Ok p' -> variable p' v = Some l.
Proof.
  intros asrt g p o p' ks v l HK Hv HV HW H.
  destruct HK as (H0 & HL & HR & HC & HI). unfold variable in *.
  destruct (nth_error (py_vars p) v) as [a|] eqn:Ea; [|discriminate].
  pose proof (HC v a Hv Ea) as Ha.
  assert (Lv : (v < length (py_vars p))%nat) by (apply nth_error_Some; congruence).
  destruct o as [o| | |w i x]; unfold pystep in H.
  - destruct (labeller p) as [s| | |]; cbn [bind] in H; try discriminate.
    destruct (step asrt g s o) as [r| | |]; cbn [bind] in H; try discriminate. apply Ok_inj in H; subst.
    cbn [py_vars py_heap]. rewrite Ea. rewrite upd_nth_other by lia. auto.
  - apply Ok_inj in H; subst. cbn [py_vars py_heap]. rewrite nth_error_app1 by lia. now rewrite Ea.
  - destruct (deref p 0) as [l0| | |]; cbn [bind] in H; try discriminate. apply Ok_inj in H; subst.
    cbn [py_vars py_heap]. rewrite nth_error_app1 by lia. rewrite Ea. rewrite nth_error_app1 by lia. auto.
  - destruct (nth_error (py_vars p) w) as [b|] eqn:Eb; [|discriminate].
    destruct (deref p b) as [l0| | |]; cbn [bind] in H; try discriminate.
    destruct ((i <? 0) || (lenZ l0 <=? i)); try discriminate. apply Ok_inj in H; subst.
    cbn [py_vars py_heap]. rewrite Ea. rewrite upd_nth_other; auto. intros ->.
    destruct (nth_error ks w) as [[|]|] eqn:Ek.
    + apply (HW i x). f_equal. eauto.
    + rewrite (HR w Ek) in Eb. injection Eb as <-. lia.
    + apply nth_error_None in Ek. assert (w < length (py_vars p))%nat by (apply nth_error_Some; congruence). lia.
Qed.

Lemma nth_app_some : forall (A : Type) (l r : list A) v x, nth_error l v = Some x -> nth_error (l ++ r) v = Some x.
Proof. intros. rewrite nth_error_app1; auto. apply nth_error_Some. congruence. Qed.

Lemma copy_kept_run : forall asrt g prog p ks p' v l, kinds p ks -> nth_error ks v = Some true ->
  variable p v = Some l -> (forall i x, ~ In (PWrite v i x) prog) ->
  foldM (pystep asrt g) prog p = Ok p' -> variable p' v = Some l.
Proof.
  induction prog as [|o t IH]; intros p ks p' v l HK Hv HV HW H; cbn [foldM] in H.
  - apply Ok_inj in H; subst. auto.
  - destruct (pystep asrt g p o) as [q| | |] eqn:E; cbn [bind] in H; try discriminate.
    apply (IH q (ks ++ kind_of o) p' v l); auto.
    + eapply step_kinds; eauto.
    + apply nth_app_some; auto.
    + apply (copy_kept_step asrt g p o q ks v l); auto. intros i x ->. apply (HW i x). left. auto.
    + intros i x I. apply (HW i x). right. auto.
Qed.

Lemma foldM_split : forall (A S : Type) (f : S -> A -> res S) a b s,
  foldM f (a ++ b) s = (q <- foldM f a s ;; foldM f b q).
Proof.
  induction a as [|x a IH]; intros b s; cbn [app foldM bind]; auto.
  destruct (f s x); cbn [bind]; auto.
Qed.

Lemma copy_kept : forall asrt g before after p q l,
  pyrun asrt g before = Ok p -> now p l ->
  (forall i x, ~ In (PWrite (length (bound before)) i x) after) ->
  pyrun asrt g (before ++ PCopy :: after) = Ok q ->
  variable q (length (bound before)) = Some l.
Proof.
  intros asrt g before after p q l Hp (s & Hs & Hl) HW H. unfold pyrun in *.
  rewrite foldM_split, Hp in H. cbn [bind foldM] in H.
  pose proof (run_kinds asrt g before _ [] p (init_kinds g) Hp) as HK. cbn [app] in HK.
  destruct (pystep asrt g p PCopy) as [p1| | |] eqn:E; cbn [bind] in H; try discriminate.
  pose proof (step_kinds asrt g p PCopy p1 (bound before) HK E) as HK1. cbn [kind_of] in HK1.
  apply (copy_kept_run asrt g after p1 (bound before ++ [true]) q _ l HK1); auto.
  - rewrite nth_error_app2, Nat.sub_diag by lia. auto.
  - unfold pystep in E. unfold labeller in Hs. destruct (deref p 0) as [l0| | |] eqn:D; cbn [bind] in *; try discriminate.
    apply Ok_inj in E. apply Ok_inj in Hs. subst s l p1. cbn [with_label c_label].
    unfold variable. cbn [py_vars py_heap]. destruct HK as (_ & HL & _).
    rewrite <- HL, nth_error_app2, Nat.sub_diag by lia. cbn [nth_error].
    rewrite nth_error_app2, Nat.sub_diag by lia. auto.
Qed.

(** ** A careful program leaves the labeller alone *)

Lemma run_from_app : forall asrt g a b s,
  run_from asrt g s (a ++ b) =
  (r <- run_from asrt g s a ;; q <- run_from asrt g (fst r) b ;; Ok (fst q, snd r ++ snd q)).
Proof.
  induction a as [|o a IH]; intros b s; cbn [app run_from bind fst snd].
  - destruct (run_from asrt g s b) as [[]| | |]; auto.
  - destruct (step asrt g s o) as [[s1 out]| | |]; cbn [bind]; auto. rewrite IH.
    destruct (run_from asrt g s1 a) as [[s2 outs]| | |]; cbn [bind fst snd]; auto.
    destruct (run_from asrt g s2 b) as [[s3 outs']| | |]; cbn [bind fst snd]; auto.
Qed.

Definition follows (x : res py) (y : res (st * list (list Z))) : Prop :=
  match x with
  | Ok p => exists s outs, y = Ok (s, outs) /\ labeller p = Ok s
  | Throw => True
  | UB => y = UB
  | NoFuel => y = NoFuel
  end.

Lemma careful_run : forall asrt g prog p ks s, kinds p ks -> labeller p = Ok s ->
  (forall v i x, In (PWrite v i x) prog -> nth_error (ks ++ bound prog) v <> Some false) ->
  follows (foldM (pystep asrt g) prog p) (run_from asrt g s (calls prog)).
Proof.
  induction prog as [|o t IH]; intros p ks s HK HS HC; cbn [foldM calls].
  - cbn [follows run_from]. eauto.
  - assert (HC' : forall v i x, In (PWrite v i x) t -> nth_error ((ks ++ kind_of o) ++ bound t) v <> Some false).
    { intros v i x I. rewrite <- app_assoc, <- bound_cons. apply (HC v i x). right. auto. }
    destruct (pystep asrt g p o) as [q| | |] eqn:E; cbn [bind].
    + pose proof (step_kinds asrt g p o q ks HK E) as HK1.
      destruct o as [o| | |v i x]; unfold pystep in E.
      * rewrite HS in E. cbn [bind] in E. cbn [run_from].
        destruct (step asrt g s o) as [[s1 out]| | |] eqn:E1; cbn [bind fst] in *; try discriminate.
        apply Ok_inj in E; subst.
        assert (HS1 : labeller (mkpy s1 (upd 0 (c_label s1) (py_heap p)) (py_vars p)) = Ok s1).
        { unfold labeller, deref. cbn [py_heap py_st]. rewrite upd_nth_same by apply HK. cbn [bind].
          now rewrite with_label_id. }
        specialize (IH _ _ s1 HK1 HS1 HC').
        destruct (foldM (pystep asrt g) t _) as [z| | |]; cbn [follows] in *; auto.
        -- destruct IH as (s2 & outs & -> & Hz). cbn [bind]. eauto.
        -- now rewrite IH.
        -- now rewrite IH.
      * apply (IH q (ks ++ [false]) s); auto. apply Ok_inj in E; subst. exact HS.
      * apply (IH q (ks ++ [true]) s); auto. destruct (deref p 0) as [l| | |] eqn:D; cbn [bind] in E; try discriminate.
        apply Ok_inj in E; subst. unfold labeller, deref in *. cbn [py_heap py_st].
        destruct HK as (H0 & _). rewrite nth_error_app1 by lia. exact HS.
      * apply (IH q (ks ++ []) s); auto. destruct (nth_error (py_vars p) v) as [a|] eqn:Ea; [|discriminate].
        destruct (deref p a) as [l| | |]; cbn [bind] in E; try discriminate.
        destruct ((i <? 0) || (lenZ l <=? i)); try discriminate. apply Ok_inj in E; subst.
        unfold labeller, deref in *. cbn [py_heap py_st].
        rewrite upd_nth_other; auto. intros ->.
        destruct HK as (H0 & HL & HR & HCp & _).
        assert (Lv : (v < length ks)%nat) by (rewrite <- HL; apply nth_error_Some; congruence).
        destruct (nth_error ks v) as [[|]|] eqn:Ek.
        -- specialize (HCp v _ Ek Ea). lia.
        -- apply (HC v i x); [left; auto|]. apply nth_app_some; auto.
        -- apply nth_error_None in Ek. lia.
    + exact I.
    + destruct o as [o| | |v i x]; unfold pystep in E.
      * rewrite HS in E. cbn [bind] in E. cbn [follows run_from].
        destruct (step asrt g s o) as [[s1 out]| | |] eqn:E1; cbn [bind] in *; try discriminate. auto.
      * discriminate.
      * unfold labeller in HS. destruct (deref p 0); cbn [bind] in *; discriminate.
      * destruct (nth_error (py_vars p) v) as [a|] eqn:Ea; [|discriminate].
        exfalso. destruct HK as (H0 & HL & HR & HCp & _).
        assert (Lv : (v < length ks)%nat) by (rewrite <- HL; apply nth_error_Some; congruence).
        assert (La : (a < length (py_heap p))%nat).
        { destruct (nth_error ks v) as [[|]|] eqn:Ek.
          - apply (HCp v _ Ek Ea).
          - rewrite (HR v Ek) in Ea. injection Ea as <-. lia.
          - apply nth_error_None in Ek. lia. }
        apply nth_error_Some in La. unfold deref in E. destruct (nth_error (py_heap p) a); [|congruence].
        cbn [bind] in E. destruct ((i <? 0) || (lenZ l <=? i)); discriminate.
    + destruct o as [o| | |v i x]; unfold pystep in E.
      * rewrite HS in E. cbn [bind] in E. cbn [follows run_from].
        destruct (step asrt g s o) as [[s1 out]| | |] eqn:E1; cbn [bind] in *; try discriminate. auto.
      * discriminate.
      * unfold labeller in HS. destruct (deref p 0); cbn [bind] in *; discriminate.
      * destruct (nth_error (py_vars p) v) as [a|]; [|discriminate]. unfold deref in E.
        destruct (nth_error (py_heap p) a); cbn [bind] in E; [|discriminate].
        destruct ((i <? 0) || (lenZ l <=? i)); discriminate.
Qed.

Lemma careful_labeller : forall asrt g prog, careful prog ->
  match pyrun asrt g prog with
  | Ok p => exists s outs, run asrt g (calls prog) = Ok (s, outs) /\ labeller p = Ok s
  | Throw => True
  | UB => run asrt g (calls prog) = UB
  | NoFuel => run asrt g (calls prog) = NoFuel
  end.
Proof.
  intros asrt g prog HC.
  apply (careful_run asrt g prog (pyinit g) [] (init g) (init_kinds g)); auto.
Qed.

(** ** Concrete programs *)

Definition row_of_four : cfg := mkcfg [4] false [[-1]; [1]].

Lemma later_wrong : exists g prog o p q v l l', make_default [4] false = Ok g /\
  pyrun true g prog = Ok p /\ variable p v = Some l /\
  pyrun true g (prog ++ [PCall o]) = Ok q /\ variable q v = Some l' /\ l <> l'.
Proof.
  exists row_of_four, [PCall (AddPoints [0]); PRead], (AddPoints [1]). do 2 eexists. exists 0%nat.
  do 2 eexists. split; [reflexivity|]. split; [vm_compute; reflexivity|].
  split; [vm_compute; reflexivity|]. split; [vm_compute; reflexivity|].
  split; [vm_compute; reflexivity|]. discriminate.
Qed.

Lemma write_wrong : exists g prog p l s outs, make_default [4] false = Ok g /\
  calls prog = [AddPoints [0]; AddPoints [1]] /\
  pyrun true g prog = Ok p /\ now p l /\ zn l 0 = 0 /\
  run true g (calls prog) = Ok (s, outs) /\ zn (c_label s) 0 <> 0.
Proof.
  exists row_of_four, [PCall (AddPoints [0]); PRead; PWrite 0 0 0; PCall (AddPoints [1])].
  eexists. exists [0; 2; 0; 0]. do 2 eexists.
  split; [reflexivity|]. split; [reflexivity|]. split; [vm_compute; reflexivity|].
  split; [eexists; split; vm_compute; reflexivity|]. split; [reflexivity|].
  split; [vm_compute; reflexivity|]. vm_compute. discriminate.
Qed.

Lemma write_outside : exists g prog s outs, make_default [4] false = Ok g /\
  pyrun true g prog = UB /\ run true g (calls prog) = Ok (s, outs).
Proof.
  exists row_of_four, [PCall (AddPoints [0]); PRead; PWrite 0 0 100; PCall (AddPoints [1])].
  do 2 eexists. split; [reflexivity|]. split; vm_compute; reflexivity.
Qed.

Definition example_program : list pyop :=
  [PCall (AddPoints [0]); PRead; PCopy; PWrite 1 3 7; PCall (AddPoints [2]); PCall (AddPoints [1])].

Lemma example_careful : careful example_program.
Proof.
  intros v i x H. cbn in H. destruct H as [H|[H|[H|[H|[H|[H|[]]]]]]]; try discriminate.
  injection H as <- _ _. cbn. discriminate.
Qed.
