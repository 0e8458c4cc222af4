(** * DerivedEnsembleCall: proofs about calls of the statistics with named arguments *)

From Coq Require Import ZArith QArith Qcanon List Bool String Lia Permutation.
From Verif Require Import Base Path Ensemble EnsemblePy BindingsCall SpecCall EnsembleCall DerivedCall.
Import ListNotations.
Local Open Scope string_scope.

Lemma leftover : forall n s pos kw, In n (map fst kw) -> ~ In n (map fst (skipn (List.length pos) s)) -> receive s pos kw = None.
Proof.
  intros n. induction s as [|p s IH]; intros pos kw I NI.
  - destruct pos; [|reflexivity]. cbn. destruct kw; [destruct I|reflexivity].
  - destruct pos as [|x pos].
    + cbn [receive]. cbn in NI. destruct (match by_name (fst p) kw with Some x => Some x | None => snd p end); [|reflexivity].
      rewrite (IH [] (filter (fun k => negb (String.eqb (fst k) (fst p))) kw)); [reflexivity| |].
      * apply in_map_iff in I. destruct I as (k & E & I). apply in_map_iff. exists k. split; [exact E|]. apply filter_In. split; [exact I|].
        apply negb_true_iff. apply String.eqb_neq. intros Q. apply NI. left. rewrite <- Q. exact E.
      * cbn. intros Q. apply NI. right. destruct s; exact Q.
    + cbn [receive]. rewrite IH; [reflexivity|exact I|exact NI].
Qed.

Lemma receive_with : forall s l o o' a pos kw n, covers s (l ++ o') a -> NoDup (map fst s) ->
  map fst l = map fst (firstn (List.length l) s) -> Permutation o o' ->
  (n <= List.length l)%nat -> pos = map snd (firstn n l) -> Permutation kw (skipn n l ++ o) -> receive s pos kw = Some a.
Proof.
  intros s l o o' a pos kw n C ND E P L EP PK. apply (receive_given s (l ++ o') a pos kw n C ND).
  - rewrite firstn_app. replace (n - List.length l)%nat with 0%nat by lia. rewrite firstn_O, app_nil_r. exact EP.
  - rewrite skipn_app. replace (n - List.length l)%nat with 0%nat by lia. rewrite skipn_O. apply perm_trans with (1 := PK). apply Permutation_app_head. exact P.
  - rewrite firstn_app. replace (n - List.length l)%nat with 0%nat by lia. rewrite firstn_O, app_nil_r.
    rewrite <- !firstn_map, E, <- firstn_map, firstn_firstn. f_equal. lia.
Qed.

Lemma given_none : forall l pos kw, given l pos kw -> given_with l [] pos kw.
Proof.
  intros l pos kw (n & E & P). unfold given_with. destruct (Nat.le_gt_cases n (List.length l)) as [L|L].
  - exists n. rewrite app_nil_r. auto.
  - exists (List.length l). rewrite firstn_all2 in E by lia. rewrite skipn_all2 in P by lia. rewrite firstn_all, skipn_all. auto.
Qed.

Lemma missing : forall n s pos kw, In (n, None) (skipn (List.length pos) s) -> ~ In n (map fst kw) -> receive s pos kw = None.
Proof.
  intros n. induction s as [|p s IH]; intros pos kw I NI.
  - rewrite skipn_nil in I. destruct I.
  - destruct pos as [|x pos].
    + cbn [receive]. cbn in I. destruct I as [->|I].
      * cbn [fst snd]. rewrite by_name_none by exact NI. reflexivity.
      * destruct (match by_name (fst p) kw with Some x => Some x | None => snd p end); [|reflexivity]. rewrite (IH [] _); [reflexivity|destruct s; exact I|].
        intros Q. apply NI. apply in_map_iff in Q. destruct Q as (k & E & Q). apply filter_In in Q. rewrite <- E. apply in_map. apply Q.
    + cbn [receive]. rewrite IH; [reflexivity|exact I|exact NI].
Qed.

(** The overloads of EnsemblePy.v. *)
Section Choose.
Context {A : Type} (f : call -> A) (l : list array) (pos : list parg) (kw : list (string * parg)).
Definition same (o : eoverload A) (d : overload) : Prop := forall c,
  attempt c pos kw o = if applies c (o_params d) l then Some (x <- enter d l ;; Ok (f x)) else None.
Definition same_at (c : bool) (o : eoverload A) (d : overload) : Prop :=
  attempt c pos kw o = if applies c (o_params d) l then Some (x <- enter d l ;; Ok (f x)) else None.
Lemma choose_first : forall o d os ds, Forall2 (same_at false) (o :: os) (d :: ds) -> same_at true o d -> applies true (o_params d) l = true ->
  choose (o :: os) pos kw = (x <- dispatch (d :: ds) l ;; Ok (f x)).
Proof.
  intros o d os ds H S T. unfold choose, dispatch.
  assert (K : forall os ds, Forall2 (same_at false) os ds -> first_of (attempt false pos kw) os =
    match find (fun d => applies false (o_params d) l) ds with Some d => Some (x <- enter d l ;; Ok (f x)) | None => None end).
  { clear. intros os ds H. induction H as [|o d os ds S H IH]; [reflexivity|]. cbn [first_of find]. rewrite S. destruct (applies false (o_params d) l); [reflexivity|exact IH]. }
  rewrite (K _ _ H). destruct (find _ (d :: ds)); [reflexivity|]. cbn [first_of find]. rewrite S, T. reflexivity.
Qed.
Lemma choose_dispatch : forall os ds, Forall2 same os ds -> choose os pos kw = (x <- dispatch ds l ;; Ok (f x)).
Proof.
  intros os ds H. unfold choose, dispatch.
  assert (K : forall c, first_of (attempt c pos kw) os =
    match find (fun d => applies c (o_params d) l) ds with Some d => Some (x <- enter d l ;; Ok (f x)) | None => None end).
  { intros c. induction H as [|o d os ds S H IH]; [reflexivity|]. cbn [first_of find]. rewrite (S c). destruct (applies c (o_params d) l); [reflexivity|exact IH]. }
  rewrite !K. destruct (find _ ds); [reflexivity|]. destruct (find _ ds); reflexivity.
Qed.
End Choose.

(** The overload that is meant, and those that are not. *)
Ltac loads :=
  cbn [applies orb andb o_params]; try reflexivity;
  repeat match goal with
  | |- context [exact_match ?p ?a] => destruct (exact_match p a)
  end; cbn [orb andb]; try reflexivity;
  repeat match goal with
  | |- context [load ?p ?a] => destruct (load p a) as [[?|?]| | |]; cbn [bind]
  end; reflexivity.
Ltac not_in := let Q := fresh in cbn; intros Q; repeat (destruct Q as [Q|Q]; [discriminate Q|]); exact Q.
Ltac is_in := cbn; repeat (first [left; reflexivity|right]).
Ltac leaves c P nm :=
  rewrite (leftover nm); [destruct c; loads|apply (Permutation_in nm (Permutation_map fst (Permutation_sym P))); is_in|not_in].
Ltac misses c P nm :=
  rewrite (missing nm); [destruct c; loads|is_in|let Q := fresh in intros Q; apply (Permutation_in nm (Permutation_map fst P)) in Q; revert Q; not_in].
Ltac meant c G rest :=
  erewrite (fun C N E => receive_prefix _ _ _ _ _ rest C N E G); cycle 1; [covered|names|reflexivity|];
  cbn [accept_all accept applies load_all enter o_params o_call bind]; destruct c; cbn [orb andb]; unfold enter; cbn [load_all o_params o_call]; loads.
Ltac by_position c P :=
  apply Permutation_sym, Permutation_nil in P; subst;
  cbn [receive option_map fst snd by_name find filter accept_all accept]; destruct c; loads.

Lemma call_method : forall asrt e m masks l md pos kw, List.length l = List.length (images m masks) ->
  (md <> None -> with_mode m) ->
  given (name_images m masks l ++ if_given "mode" PMode md) pos kw ->
  py_method asrt e m pos kw = py_add asrt e m l (match md with Some v => v | None => Bresenham end).
Proof.
  intros asrt e m masks l md pos kw EL WM G. unfold py_method, py_add, py_call.
  assert (K : choose (methods m) pos kw = (x <- dispatch (overloads m (match md with Some v => v | None => Bresenham end)) l ;; Ok x)); 
    [|rewrite K; destruct (dispatch _ l); reflexivity].
  destruct m, masks; cbn [images List.length] in EL;
  (repeat (let a := fresh "a" in destruct l as [|a l]; cbn [List.length] in EL; try discriminate EL));
  unfold name_images in G; cbn [images combine map app] in G;
  (destruct md as [md|]; [|clear WM]); try (exfalso; assert (Q : Some md <> None) by discriminate; destruct (WM Q); discriminate); cbn [if_given app] in G;
  apply choose_dispatch; cbn [methods overloads]; repeat constructor;
  intros c; unfold attempt; cbn [eo_names eo_types eo_run o_params];
  try (solve [meant c G (@nil string) | meant c G ["mode"]]);
  destruct G as (k & EP & PK);
  (repeat match type of EP with context [firstn k _] => destruct k as [|k]; cbn [firstn map snd] in EP; cbn [skipn] in PK; [|rewrite ?firstn_nil, ?skipn_nil in EP, PK; cbn [map] in EP] end);
  subst pos; try (solve [misses c PK "fmask" | leaves c PK "fmask" | leaves c PK "gmask" | leaves c PK "mode" | by_position c PK]).
Qed.

Lemma receive_given_with : forall s l o o' a pos kw, covers s (l ++ o') a -> NoDup (map fst s) ->
  map fst l = map fst (firstn (List.length l) s) -> Permutation o o' -> given_with l o pos kw -> receive s pos kw = Some a.
Proof. intros s l o o' a pos kw C ND E P (n & L & EP & PK). apply (receive_with s l o o' a pos kw n); assumption. Qed.

Ltac wloads R :=
  cbn [accept_all accept applies load_all enter o_params o_call bind]; rewrite ?R; cbn [orb andb]; unfold enter; cbn [load_all o_params o_call]; loads.
Ltac meant_with c G R :=
  erewrite (fun C N E => receive_given_with _ _ _ _ _ _ _ C N E (Permutation_refl _) G); cycle 1; [cbn [app]; covered|names|reflexivity|];
  destruct c; wloads R.
Ltac meant_swap c G R :=
  erewrite (fun C N E => receive_given_with _ _ _ _ _ _ _ C N E (perm_swap _ _ _) G); cycle 1; [cbn [app]; covered|names|reflexivity|];
  destruct c; wloads R.
Ltac single_flag O :=
  repeat match goal with
  | |- context [match a_vals ?a with _ => _ end] =>
      let K := fresh "K" in let E := fresh "E" in
      assert (K : List.length (a_vals a) <> 1%nat) by (apply O; cbn; tauto); destruct (a_vals a) as [|? [|? ?]] eqn:E; [|exfalso; apply K; reflexivity|]; clear K
  end.
Ltac explicit P :=
  first [apply Permutation_sym, Permutation_nil in P; subst | apply Permutation_sym, Permutation_length_1_inv in P; subst].
Ltac by_place c R P O :=
  explicit P; cbn [receive option_map fst snd by_name find filter String.eqb Ascii.eqb Bool.eqb negb accept_all accept]; rewrite ?R; 
  destruct c; cbn [orb andb]; single_flag O; loads.

Lemma call_wrapper : forall asrt m masks roi l per md pos kw, m <> M_mean -> List.length l = List.length (images m masks) ->
  forallb (fun n => (0 <=? n)%Z) roi = true -> (md <> None -> with_mode m) ->
  (masks = true -> m = M_W2 \/ m = M_heightheight -> forall a, In a l -> List.length (a_vals a) <> 1%nat) ->
  given_with (("roi", PShape roi) :: name_images m masks l) (if_given "periodic" PFlag per ++ if_given "mode" PMode md) pos kw ->
  py_wrapper asrt m pos kw = py_single asrt roi (match per with Some b => b | None => true end) m l (match md with Some v => v | None => Bresenham end).
Proof.
  intros asrt m masks roi l per md pos kw NM EL R WM O G. unfold py_wrapper, py_single, py_call.
  assert (K : choose (wrappers m) pos kw = (x <- dispatch (overloads m (match md with Some v => v | None => Bresenham end)) l ;;
     Ok (roi, match per with Some b => b | None => true end, x))).
  2:{ rewrite K. destruct m; [contradiction| | | | | | ]; destruct (dispatch _ l); reflexivity. }
  destruct m, masks; try contradiction; clear NM; cbn [images List.length] in EL;
  (repeat (let a := fresh "a" in destruct l as [|a l]; cbn [List.length] in EL; try discriminate EL));
  unfold name_images in G; cbn [images combine map app] in G;
  try (specialize (O eq_refl (or_introl eq_refl))); try (specialize (O eq_refl (or_intror eq_refl)));
  (destruct md as [md|]; [|clear WM]); try (exfalso; assert (Q : Some md <> None) by discriminate; destruct (WM Q); discriminate);
  destruct per as [per|]; cbn [if_given app] in G;
  apply (choose_dispatch (fun x => (roi, _, x))); cbn [wrappers overloads]; repeat constructor;
  intros c; unfold attempt; cbn [eo_names eo_types eo_run o_params];
  try (solve [meant_with c G R | meant_swap c G R]);
  destruct G as (k & L & EP & PK); cbn [List.length] in L;
  (do 7 (try (destruct k as [|k]; [|try (exfalso; lia)])));
  try (exfalso; lia); clear L; cbn [firstn map snd] in EP; cbn [skipn app] in PK; subst pos;
  try (solve [misses c PK "fmask" | leaves c PK "fmask" | leaves c PK "gmask" | leaves c PK "mode" | leaves c PK "periodic" | by_place c R PK O]).
Qed.

(** Options by position. *)
Ltac meant_first c G R rest :=
  erewrite (fun C N E => receive_prefix _ _ _ _ _ rest C N E G); cycle 1; [covered|names|reflexivity|]; destruct c; wloads R.

Lemma call_wrapper_order : forall asrt m masks roi l per md pos kw, m <> M_mean -> List.length l = List.length (images m masks) ->
  forallb (fun n => (0 <=? n)%Z) roi = true -> in_order m per md ->
  (masks = true -> m = M_W2 \/ m = M_heightheight -> forall a, In a l -> List.length (a_vals a) <> 1%nat) ->
  given (("roi", PShape roi) :: name_images m masks l ++ options m per md) pos kw ->
  py_wrapper asrt m pos kw = py_single asrt roi (match per with Some b => b | None => true end) m l (match md with Some v => v | None => Bresenham end).
Proof.
  intros asrt m masks roi l per md pos kw NM EL R IO O G. unfold py_wrapper, py_single, py_call.
  assert (K : choose (wrappers m) pos kw = (x <- dispatch (overloads m (match md with Some v => v | None => Bresenham end)) l ;;
     Ok (roi, match per with Some b => b | None => true end, x))).
  2:{ rewrite K. destruct m; [contradiction| | | | | | ]; destruct (dispatch _ l); reflexivity. }
  destruct m, masks; try contradiction; clear NM; cbn [images List.length] in EL;
  (repeat (let a := fresh "a" in destruct l as [|a l]; cbn [List.length] in EL; try discriminate EL));
  unfold name_images in G; cbn [images combine map app] in G;
  try (specialize (O eq_refl (or_introl eq_refl))); try (specialize (O eq_refl (or_intror eq_refl)));
  cbn [in_order options] in IO, G;
  destruct md as [md|]; destruct per as [per|]; try discriminate IO; try (exfalso; apply IO; [discriminate|reflexivity]); clear IO; cbn [if_given app] in G;
  first [apply (choose_first (fun x => (roi, _, x))); [repeat constructor| |reflexivity]; unfold same_at; pose (c := false)
        |apply (choose_dispatch (fun x => (roi, _, x))); repeat constructor; intros c];
  unfold attempt; cbn [eo_names eo_types eo_run o_params];
  try (solve [meant_first c G R (@nil string) | meant_first c G R ["mode"] | meant_first c G R ["periodic"] | meant_first c G R ["mode"; "periodic"]
             |meant_first c G R ["periodic"; "mode"]]);
  destruct G as (k & EP & PK);
  (repeat match type of EP with context [firstn k _] => destruct k as [|k]; cbn [firstn map snd] in EP; cbn [skipn] in PK; [|rewrite ?firstn_nil, ?skipn_nil in EP, PK; cbn [map] in EP] end);
  subst pos;
  try (solve [misses c PK "fmask" | misses c PK "gmask" | leaves c PK "fmask" | leaves c PK "gmask" | leaves c PK "mode" | leaves c PK "periodic" | by_place c R PK O]).
Qed.
