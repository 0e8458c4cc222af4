(** * Properties_Misc: C54, C55, C62, C63 *)

From Coq Require Import String Ascii ZArith Bool Lia List.
From Verif Require Import Base SpecCluster Cluster ClusterTop Misc SpecMisc MiscProofs.
Import ListNotations.
Open Scope Z_scope.

(** ** C54 *)
Theorem C54_size_partial : forall asrt g ops, wf g -> Forall (legal (g_shape g)) ops ->
  exists s outs, run asrt g ops = Ok (s, outs) /\ cpp_size s = zprod (g_shape g) /\ cpp_shape g = g_shape g.
Proof. exact size_ok. Qed.
Print Assumptions C54_size_partial.

Theorem C54_python_size_refuted : exists shape per g, make_default shape per = Ok g /\
  py_size g (init g) <> PyInt (zprod shape).
Proof. exact size_refuted. Qed.
Print Assumptions C54_python_size_refuted.

Example C54_case : py_size (mkcfg [3; 4] true []) (init (mkcfg [3; 4] true [])) = PyList [3; 4] /\
  cpp_size (init (mkcfg [3; 4] true [])) = 12.
Proof. split; reflexivity. Qed.

(** ** C55 *)
Theorem C55_version_without_quotes : forall configured, exists t, version configured = Ok t /\
  without """"%char (list_ascii_of_string configured) t.
Proof. exact version_ok. Qed.
Print Assumptions C55_version_without_quotes.

Theorem C55_text_is_determined : forall c s t t', without c s t -> without c s t' -> t = t'.
Proof. exact without_unique. Qed.
Print Assumptions C55_text_is_determined.

Example C55_case : version """0.12.3""" = Ok (list_ascii_of_string "0.12.3").
Proof. vm_compute. reflexivity. Qed.

(** ** C62 *)
Theorem C62_repr_shows_rank_and_shape : forall python shape, repr python shape =
  Ok ((if python then "GooseEYE.ClusterLabeller" else "GooseEYE::ClusterLabeller") ++ digits (lenZ shape) ++
      " [" ++ String.concat ", " (map digits shape) ++ "]")%string.
Proof. exact repr_ok. Qed.
Print Assumptions C62_repr_shows_rank_and_shape.

Theorem C62_repr_tells_shapes_apart : forall python shape shape',
  Forall (fun x => 0 <= x) shape -> Forall (fun x => 0 <= x) shape' ->
  repr python shape = repr python shape' -> shape = shape'.
Proof. exact repr_inj. Qed.
Print Assumptions C62_repr_tells_shapes_apart.

Example C62_case : repr true [12; 0; 345] = Ok "GooseEYE.ClusterLabeller3 [12, 0, 345]"%string.
Proof. vm_compute. reflexivity. Qed.

(** ** C63 *)
Theorem C63_python_labeller_default : forall asrt shape per, 1 <= lenZ shape <= 3 -> Forall (fun n => 0 <= n < 2 ^ 64) shape ->
  py_labeller asrt shape per None = make_default shape per.
Proof. exact py_default. Qed.
Print Assumptions C63_python_labeller_default.

Theorem C63_python_labeller_kernel : forall asrt shape per ks kv, 1 <= lenZ shape <= 3 -> Forall (fun n => 0 <= n < 2 ^ 64) shape ->
  lenZ ks = lenZ shape -> py_labeller asrt shape per (Some (ks, kv)) = make_kernel asrt shape per ks kv.
Proof. exact py_kernel. Qed.
Print Assumptions C63_python_labeller_kernel.

Theorem C63_python_labeller_throws : forall asrt shape per ks kv,
  (~ 1 <= lenZ shape <= 3 -> forall k, py_labeller asrt shape per k = Throw) /\
  (~ Forall (fun n => 0 <= n < 2 ^ 64) shape -> forall k, py_labeller asrt shape per k = Throw) /\
  (lenZ ks <> lenZ shape -> py_labeller asrt shape per (Some (ks, kv)) = Throw).
Proof. exact py_throws. Qed.
Print Assumptions C63_python_labeller_throws.

(** The classes that the factory chooses from: which there are, and using them directly. *)
Theorem C63_classes : forall name d per, (lookup name = Ok (d, per) <-> In (name, d, per) python_classes) /\
  ((forall d per, ~ In (name, d, per) python_classes) -> lookup name = Throw).
Proof. exact classes_ok. Qed.
Print Assumptions C63_classes.

Theorem C63_class_of_a_rank : forall asrt d per shape,
  (lenZ shape = d -> Forall (fun n => 0 <= n < 2 ^ 64) shape -> construct asrt (d, per) shape None = make_default shape per) /\
  (forall ks kv, lenZ shape = d -> Forall (fun n => 0 <= n < 2 ^ 64) shape -> lenZ ks = d ->
     construct asrt (d, per) shape (Some (ks, kv)) = make_kernel asrt shape per ks kv) /\
  (lenZ shape <> d \/ ~ Forall (fun n => 0 <= n < 2 ^ 64) shape -> forall k, construct asrt (d, per) shape k = Throw) /\
  (forall ks kv, lenZ ks <> d -> construct asrt (d, per) shape (Some (ks, kv)) = Throw).
Proof. exact class_construct. Qed.
Print Assumptions C63_class_of_a_rank.

Example C63_case : exists g, py_labeller true [3; 4] true None = Ok g /\ g_per g = true /\ g_shape g = [3; 4].
Proof. eexists. split; [vm_compute; reflexivity|]. split; reflexivity. Qed.
