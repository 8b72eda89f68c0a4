(** Facts about memo tables and nested loops over them. *)
From Verif.Model Require Export Cache.
From Verif.Proof Require Export PolyFacts.

Section C.
Context {I A : Type} `{Key I}.
Implicit Types (c : list (I * A)).

Lemma cget_cset_same i a c : cget i (cset i a c) = Ok a.
Proof.
  induction c as [|[j b] r IH]; simpl.
  - now rewrite (proj2 (keqb_spec i i) eq_refl).
  - destruct (keqb j i) eqn:E; simpl; rewrite E; [reflexivity|exact IH].
Qed.
Lemma cget_cset_other i j a c : i <> j -> cget j (cset i a c) = cget j c.
Proof.
  intro N. induction c as [|[k b] r IH]; simpl.
  - destruct (keqb i j) eqn:E; [|reflexivity]. apply keqb_spec in E. congruence.
  - destruct (keqb k i) eqn:E; simpl.
    + apply keqb_spec in E. subst k. destruct (keqb i j) eqn:E; [|reflexivity].
      apply keqb_spec in E. congruence.
    + destruct (keqb k j); [reflexivity|exact IH].
Qed.
Lemma cget_cdel f j c : f j = false -> cget j (cdel f c) = cget j c.
Proof.
  intro Hf. induction c as [|[k b] r IH]; simpl; [reflexivity|].
  destruct (f k) eqn:E; simpl; [|now rewrite IH].
  destruct (keqb k j) eqn:E2; [|exact IH]. apply keqb_spec in E2. subst k. congruence.
Qed.
End C.

Lemma foldM_ext {S A} (f g : S -> A -> res S) (l : list A) :
  (forall x, In x l -> forall s, f s x = g s x) -> forall s, foldM f l s = foldM g l s.
Proof.
  induction l as [|x r IH]; intros E s; simpl; [reflexivity|].
  rewrite E by now left. destruct (g s x); [|reflexivity]. apply IH. intros; apply E; now right.
Qed.
Lemma foldM_app {S A} (f : S -> A -> res S) (l1 l2 : list A) : forall s,
  foldM f (l1 ++ l2) s = bind (foldM f l1 s) (foldM f l2).
Proof.
  induction l1 as [|x r IH]; intro s; simpl; [reflexivity|].
  destruct (f s x); [apply IH|reflexivity].
Qed.
Lemma foldM_map {S A B} (f : S -> B -> res S) (g : A -> B) (l : list A) : forall s,
  foldM f (map g l) s = foldM (fun s x => f s (g x)) l s.
Proof.
  induction l as [|x r IH]; intro s; simpl; [reflexivity|].
  destruct (f s (g x)); [apply IH|reflexivity].
Qed.
(** nested loops as one loop over pairs *)
Lemma foldM_nested {S A B} (f : S -> A -> B -> res S) (g : A -> list B) (l : list A) : forall s,
  foldM (fun s a => foldM (fun s b => f s a b) (g a) s) l s
  = foldM (fun s ab => f s (fst ab) (snd ab)) (flat_map (fun a => map (pair a) (g a)) l) s.
Proof.
  induction l as [|a r IH]; intro s; simpl; [reflexivity|].
  rewrite foldM_app, foldM_map. cbn [fst snd].
  destruct (foldM (fun s b => f s a b) (g a) s) as [s'|]; [apply IH|reflexivity].
Qed.

(** loop rule: an invariant, and a property established for each visited element
    that later iterations preserve *)
Lemma foldM_visit {S A} (f : S -> A -> res S) (Inv : S -> Prop) (Q : A -> S -> Prop) (l : list A) :
  (forall x, In x l -> forall s, Inv s ->
     returns (f s x) (fun s' => Inv s' /\ Q x s' /\ forall y, Q y s -> Q y s')) ->
  forall s, Inv s -> returns (foldM f l s) (fun s' => Inv s' /\ forall x, In x l -> Q x s').
Proof.
  intros Hx.
  assert (G : forall s, Inv s -> returns (foldM f l s)
    (fun s' => Inv s' /\ (forall x, In x l -> Q x s') /\ forall y, Q y s -> Q y s')).
  { induction l as [|x r IH]; intros s Hs; simpl.
    - split; [assumption|]. split; [intros x []|auto].
    - pose proof (Hx x (or_introl eq_refl) s Hs) as h.
      destruct (f s x) as [s'|]; [|exact h]. destruct h as (h1 & h2 & h3).
      eapply returns_weaken; [apply IH; [intros; apply Hx; [now right|assumption]|exact h1]|].
      intros s'' (g1 & g2 & g3). split; [assumption|]. split; [|auto].
      intros y [<-|Hy]; auto. }
  intros s Hs. eapply returns_weaken; [apply G, Hs|]. intros s' (h1 & h2 & _). auto.
Qed.

Lemma in_range_down a x : In x (range_down a) <-> (0 <= x <= a)%Z.
Proof.
  unfold range_down. rewrite <- in_rev. unfold range. rewrite in_map_iff. split.
  - intros [n [E Hn]]. apply in_seq in Hn. lia.
  - intro Hx. exists (Z.to_nat x). split; [lia|]. apply in_seq. lia.
Qed.
