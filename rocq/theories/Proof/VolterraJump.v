(** Existence for triangular systems of integral equations whose coefficients are
    continuous up to finitely many jumps. *)
From Coq Require Import Reals Lra.
From Coquelicot Require Import Coquelicot.
From Verif.Proof Require Export VolterraFacts JumpSum.
Local Open Scope R_scope.

Definition step1 (tg : R * (R -> R)) (s : R) : R := if Rle_dec (fst tg) s then snd tg s else 0.
(** [c] is a finite sum of continuous functions, each switched on at some time >= 0 *)
Definition pcw (c : R -> R) : Prop :=
  exists l : list (R * (R -> R)), (forall tg, In tg l -> 0 <= fst tg /\ forall t, continuous (snd tg) t) /\
    forall s, 0 <= s -> c s = sumR (fun tg => step1 tg s) l.

Lemma pcw_cont (c : R -> R) : (forall t, continuous c t) -> pcw c.
Proof.
  intro h. exists [(0, c)]. split.
  - intros tg [<-|[]]. split; [apply Rle_refl|exact h].
  - intros s Hs. cbn [sumR]. unfold step1. cbn [fst snd]. destruct (Rle_dec 0 s); lra.
Qed.
Lemma pcw_plus (c d : R -> R) : pcw c -> pcw d -> pcw (fun s => c s + d s).
Proof.
  intros (l & h1 & h2) (l' & g1 & g2). exists (l ++ l'). split.
  - intros tg Hin. apply in_app_iff in Hin. destruct Hin; [now apply h1|now apply g1].
  - intros s Hs. rewrite sumR_app, h2, g2 by assumption. reflexivity.
Qed.
Lemma pcw_cmult (c d : R -> R) : (forall t, continuous c t) -> pcw d -> pcw (fun s => c s * d s).
Proof.
  intros h (l & h1 & h2). exists (map (fun tg => (fst tg, fun s => c s * snd tg s)) l). split.
  - intros tg Hin. apply in_map_iff in Hin. destruct Hin as (tg' & <- & Hin). destruct (h1 tg' Hin) as [g1 g2].
    cbn [fst snd]. split; [assumption|]. intro t. now apply continuous_Rmult.
  - intros s Hs. rewrite h2, sumR_map, <- sumR_scal by assumption. apply sumR_ext. intros tg _. unfold step1. cbn [fst snd].
    destruct (Rle_dec (fst tg) s); ring.
Qed.
Lemma pcw_ext (c d : R -> R) : (forall s, c s = d s) -> pcw c -> pcw d.
Proof. intros E (l & h1 & h2). exists l. split; [assumption|]. intros s Hs. now rewrite <- E, h2. Qed.

Lemma continuous_Rmax_r (a t : R) : continuous (fun t => Rmax t a) t.
Proof.
  apply (continuous_ext_all (fun t => (t + a + Rabs (t - a)) / 2)).
  - intro x. unfold Rmax, Rabs. destruct (Rle_dec x a), (Rcase_abs (x - a)); lra.
  - unfold Rdiv. apply continuous_Rmult; [|apply continuous_Rconst].
    apply continuous_Rplus; [apply continuous_Rplus; [apply continuous_Rid|apply continuous_Rconst]|].
    apply (continuous_comp (fun t => t - a) Rabs); [apply continuous_Rminus; [apply continuous_Rid|apply continuous_Rconst]|].
    apply continuous_Rabs.
Qed.

Lemma pcw_int (c M : R -> R) : pcw c -> (forall t, continuous M t) ->
  exists H : R -> R, (forall t, continuous H t) /\ forall t, 0 <= t -> is_RInt (fun s => c s * M s) 0 t (H t).
Proof.
  intros (l & h1 & h2) HM.
  set (P := fun (tg : R * (R -> R)) (t : R) => RInt (fun s => snd tg s * M s) 0 t).
  assert (Pd : forall tg, In tg l -> forall t, is_derive (P tg) t (snd tg t * M t)).
  { intros tg Hin t. destruct (h1 tg Hin) as [g1 g2]. apply (is_derive_RInt0 (fun s => snd tg s * M s)).
    intro u. now apply continuous_Rmult. }
  exists (fun t => sumR (fun tg => P tg (Rmax t (fst tg)) - P tg (fst tg)) l). split.
  - intro t. apply (continuous_sumR (fun tg t => P tg (Rmax t (fst tg)) - P tg (fst tg))). intros tg Hin.
    apply continuous_Rminus; [|apply continuous_Rconst].
    apply (continuous_comp (fun t => Rmax t (fst tg)) (P tg)); [apply continuous_Rmax_r|].
    eapply continuous_of_derive, Pd, Hin.
  - intros t Ht.
    apply (is_RInt_ext (fun s => sumR (fun tg => step1 tg s * M s) l)).
    { intros s Hs. rewrite Rmin_left in Hs by assumption. rewrite h2 by lra.
      match goal with |- ?x = ?y => change (@eq R x y) end.
      rewrite Rmult_comm, <- sumR_scal. apply sumR_ext. intros; ring. }
    apply (is_RInt_sumR (fun tg s => step1 tg s * M s)). intros tg Hin. destruct (h1 tg Hin) as [g1 g2].
    apply (is_RInt_ext (fun s => ind s (fun _ => snd tg s * M s) (fst tg))).
    { intros s _. unfold step1, ind. match goal with |- ?x = ?y => change (@eq R x y) end.
      destruct (Rle_dec (fst tg) s); ring. }
    replace (P tg (Rmax t (fst tg)) - P tg (fst tg)) with (ind t (fun _ => P tg t - P tg (fst tg)) (fst tg)).
    + apply RInt_ind; [assumption|assumption|]. intros _. apply (RInt_of_derive (P tg)); [now apply Pd|].
      intro u. now apply continuous_Rmult.
    + unfold ind, Rmax. destruct (Rle_dec (fst tg) t), (Rle_dec t (fst tg)); try lra. replace (fst tg) with t by lra. ring.
Qed.

Section V.
Context {I : Type} (dom : I -> Prop) (sys : I -> list ((R -> R) * I)) (init : I -> R) (ord : I -> nat).
Hypothesis tri : forall i, dom i -> forall c j, In (c, j) (sys i) -> dom j /\ (ord j < ord i)%nat.
Hypothesis pc : forall i c j, In (c, j) (sys i) -> pcw c.

Fixpoint jbuild (n : nat) (i : I) (t : R) : R :=
  match n with
  | O => 0
  | S m => init i + RInt (lin_rhs sys (jbuild m) i) 0 (Rmax t 0)
  end.

Lemma lin_int M i : (forall j t, continuous (M j) t) ->
  exists H : R -> R, (forall t, continuous H t) /\ forall t, 0 <= t -> is_RInt (lin_rhs sys M i) 0 t (H t).
Proof.
  intro HM. unfold lin_rhs. pose proof (pc i) as hp. induction (sys i) as [|[c j] r IH].
  - exists (fun _ => 0). split; [intro; apply continuous_Rconst|]. intros t _. cbn [sumR].
    pose proof (is_RInt_const (V := R_NormedModule) 0 t 0) as h0. unfold scal in h0. simpl in h0.
    unfold mult in h0. simpl in h0. rewrite Rmult_0_r in h0. exact h0.
  - destruct IH as (H & h1 & h2); [intros c' j' Hin; apply (hp c' j'); now right|].
    destruct (pcw_int c (M j)) as (G & g1 & g2); [apply (hp c j); now left|apply HM|].
    exists (fun t => G t + H t). split; [intro t; now apply continuous_Rplus|].
    intros t Ht. cbn [sumR fst snd].
    apply (is_RInt_Rplus (fun s => c s * M j s) (fun s => sumR (fun cj => fst cj s * M (snd cj) s) r)); [now apply g2|now apply h2].
Qed.

Lemma jbuild_cont n : forall i t, continuous (jbuild n i) t.
Proof.
  induction n as [|n IH]; intros i t; cbn [jbuild]; [apply continuous_Rconst|].
  apply continuous_Rplus; [apply continuous_Rconst|].
  destruct (lin_int (jbuild n) i IH) as (H & h1 & h2).
  apply (continuous_ext_all (fun t => H (Rmax t 0))).
  - intro u. symmetry. apply (is_RInt_unique (V := R_CompleteNormedModule)), h2, Rmax_r.
  - apply (continuous_comp (fun t => Rmax t 0) H); [apply continuous_Rmax_r|apply h1].
Qed.

Lemma jbuild_stable n : forall m i t, dom i -> (ord i < n)%nat -> (ord i < m)%nat ->
  jbuild n i t = jbuild m i t.
Proof.
  induction n as [|n IH]; intros m i t Hi Hn Hm; [lia|].
  destruct m as [|m]; [lia|]. cbn [jbuild]. f_equal. apply RInt_ext. intros x _.
  apply sumR_ext. intros [c j] Hin. cbn [fst snd]. destruct (tri i Hi c j Hin) as [g1 g2].
  f_equal. apply IH; [assumption|lia|lia].
Qed.

Definition jmin (i : I) : R -> R := jbuild (S (ord i)) i.

Lemma jsol_exists : vsol dom sys init jmin.
Proof.
  intros i Hi t Ht. unfold jmin. cbn [jbuild].
  destruct (lin_int (jbuild (ord i)) i (jbuild_cont (ord i))) as (H & h1 & h2).
  rewrite Rmax_left by assumption.
  rewrite (is_RInt_unique (V := R_CompleteNormedModule) _ _ _ _ (h2 t Ht)).
  assert (Er : forall x y : R, x + y - x = y) by (intros; ring). rewrite Er.
  apply (is_RInt_ext (lin_rhs sys (jbuild (ord i)) i)); [|now apply h2].
  intros x _. apply sumR_ext. intros [c j] Hin. cbn [fst snd].
  destruct (tri i Hi c j Hin) as [g1 g2]. f_equal.
  apply (jbuild_stable (ord i) (S (ord j))); [assumption|lia|lia].
Qed.
End V.
