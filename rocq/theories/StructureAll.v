(** * StructureAll: every entry of [Structure] in two dimensions *)

From Coq Require Import ZArith List Bool Lia Reals Lra.
From Verif Require Import Base BaseLemmas Structure SpecStructure StructureProofs StructureProofs2 StructureTop SpecStructureAll.
Import ListNotations.
Open Scope Z_scope.

Lemma product2_eq : forall n m u k l k' l', 1 <= n -> 1 <= m -> fst (cmul (fft2 n m u k l) (fft2 n m u k' l')) = product2 n m u k l k' l'.
Proof.
  intros. unfold cmul. cbn [fst]. rewrite !fft2_fst, !fft2_snd by lia. unfold product2, cosines, sines.
  unfold wave2. ring.
Qed.

Lemma start_of_eq : forall n, start_of n = n / 2 + 1.
Proof. intros n. unfold start_of, stop_of. destruct (n mod 2 =? 0); lia. Qed.

Lemma every_entry : forall n m start l, 1 <= n -> 1 <= m -> n mod 2 = m mod 2 -> fresh [n; m] start -> l <> [] ->
  exists st, add_samples start (samples2 n m l) = Ok (Some st) /\ st_shape st = [n; m] /\
    forall i j, 0 <= i < n -> 0 <= j < m ->
      let entry f := mean st [i; j] = Some (average (fun s => f s / IZR (n * m))%R l) in
      (nyquist n i \/ nyquist m j -> mean st [i; j] = None) /\
      (2 * i < n /\ 2 * j < m \/ n < 2 * i /\ m < 2 * j -> entry (fun s => power2 n m (fst s) i j)) /\
      (i = 0 /\ m < 2 * j \/ j = 0 /\ n < 2 * i -> entry (fun s => snd s i j)) /\
      (0 < i /\ 2 * i < n /\ m < 2 * j -> entry (fun s => product2 n m (fst s) i (j - m / 2) i (m - (j - m / 2)))) /\
      (n < 2 * i /\ 0 < j /\ 2 * j < m -> entry (fun s => product2 n m (fst s) (i - n / 2) j (n - (i - n / 2)) j)).
Proof.
  intros n m start l Hn Hm HP HF HL. destruct (structure2_all n m start l) as (st & E & SH & M); auto.
  exists st. split; [exact E|]. split; [exact SH|]. intros i j Hi Hj entry. destruct (M i j Hi Hj) as [M1 M2]. split; [exact M2|].
  unfold entry. clear entry.
  assert (G : forall f, ~ nyquist n i -> ~ nyquist m j -> (forall s, entry2 Float n m (fst s) (snd s) i j = f s) -> mean st [i; j] = Some (average (fun s => f s / IZR (n * m))%R l)).
  { intros f N1 N2 H. rewrite M1 by assumption. f_equal. apply average_ext. intros s _. rewrite H. reflexivity. }
  unfold nyquist in *.
  split; [|split; [|split]]; intros Q; apply G; try lia; intros s; unfold entry2;
    repeat match goal with |- context [if ?b then _ else _] => first [replace b with false by lia|replace b with true by lia]; cbv iota end; try reflexivity;
    cbn [cast]; rewrite product2_eq, start_of_eq by lia; f_equal; lia.
Qed.

