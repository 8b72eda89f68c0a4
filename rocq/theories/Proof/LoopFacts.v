(** Facts about fuelled loops. *)
From Verif.Model Require Export Loop.

Section L.
Context {S A : Type} (step : S -> outcome S A).

Fixpoint iterk (k : nat) (s : S) : outcome S A :=
  match k with
  | O => Running s
  | Datatypes.S k' => match step s with Running s' => iterk k' s' | o => o end
  end.

Lemma iterk_add a : forall b s,
  iterk (a + b) s = match iterk a s with Running s' => iterk b s' | o => o end.
Proof.
  induction a as [|a IH]; intros b s; simpl; [reflexivity|].
  destruct (step s); auto.
Qed.

Lemma run_iterk d : forall s, run d step s = iterk (2 ^ d) s.
Proof.
  induction d as [|d IH]; intro s; simpl.
  - destruct (step s); reflexivity.
  - rewrite IH, Nat.add_0_r, iterk_add. destruct (iterk (2 ^ d) s); auto.
Qed.

(** reaching a state / a result in at most [b] steps *)
Definition reaches (b : nat) (s s' : S) : Prop :=
  exists k, (k <= b)%nat /\ iterk k s = Running s'.
Definition finishes (b : nat) (s : S) (a : A) : Prop :=
  exists k, (k <= b)%nat /\ iterk k s = Done a.

Lemma reaches_refl s : reaches 0 s s.
Proof. exists 0%nat. auto. Qed.
Lemma reaches_step s s' : step s = Running s' -> reaches 1 s s'.
Proof. intro E. exists 1%nat. simpl. rewrite E. auto. Qed.
Lemma finishes_step s a : step s = Done a -> finishes 1 s a.
Proof. intro E. exists 1%nat. simpl. rewrite E. auto. Qed.
Lemma reaches_trans b1 b2 s1 s2 s3 :
  reaches b1 s1 s2 -> reaches b2 s2 s3 -> reaches (b1 + b2) s1 s3.
Proof.
  intros [k1 [h1 e1]] [k2 [h2 e2]]. exists (k1 + k2)%nat. split; [lia|].
  rewrite iterk_add, e1. exact e2.
Qed.
Lemma reaches_finishes b1 b2 s1 s2 a :
  reaches b1 s1 s2 -> finishes b2 s2 a -> finishes (b1 + b2) s1 a.
Proof.
  intros [k1 [h1 e1]] [k2 [h2 e2]]. exists (k1 + k2)%nat. split; [lia|].
  rewrite iterk_add, e1. exact e2.
Qed.
Lemma reaches_le b b' s s' : (b <= b')%nat -> reaches b s s' -> reaches b' s s'.
Proof. intros Hb [k [h e]]. exists k. split; [lia|exact e]. Qed.
Lemma finishes_le b b' s a : (b <= b')%nat -> finishes b s a -> finishes b' s a.
Proof. intros Hb [k [h e]]. exists k. split; [lia|exact e]. Qed.

Lemma iterk_done_mono k s a : iterk k s = Done a -> forall k', (k <= k')%nat -> iterk k' s = Done a.
Proof.
  intros E k' Hk. replace k' with (k + (k' - k))%nat by lia. rewrite iterk_add, E. reflexivity.
Qed.

Lemma finishes_run b d s a : finishes b s a -> (b <= 2 ^ d)%nat -> run d step s = Done a.
Proof.
  intros [k [h e]] Hb. rewrite run_iterk. eapply iterk_done_mono; [exact e|lia].
Qed.
End L.
