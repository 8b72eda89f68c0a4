From Coq Require Import Lra.
From Verif.Spec Require Export Expect.
From Verif.Proof Require Export SumFacts.
Local Open Scope R_scope.

Lemma Efin_expectation {Om} (ps : list (R * Om)) : expectation (Efin ps).
Proof.
  split; unfold Efin.
  - intros X Y E. apply sumR_ext. intros. now rewrite E.
  - intros X Y. rewrite <- sumR_plus. apply sumR_ext. intros. lra.
  - intros c X. rewrite <- sumR_scal. apply sumR_ext. intros. lra.
Qed.

Section E.
Context {Om : Type} (E : (Om -> R) -> R) (HE : expectation E).
Lemma E_0 : E (fun _ => 0) = 0.
Proof.
  pose proof (E_scal _ HE 0 (fun _ => 0)) as h.
  rewrite (E_ext _ HE _ (fun _ => 0)) in h by (intros; lra). lra.
Qed.
Lemma E_sumR {A} (f : A -> Om -> R) l : E (fun w => sumR (fun a => f a w) l) = sumR (fun a => E (f a)) l.
Proof.
  induction l as [|a r IH]; simpl; [apply E_0|].
  rewrite <- IH. rewrite <- (E_plus _ HE). reflexivity.
Qed.
Lemma E_scal_r c X : E (fun w => X w * c) = E X * c.
Proof.
  rewrite Rmult_comm, <- (E_scal _ HE). apply (E_ext _ HE). intro. apply Rmult_comm.
Qed.
Lemma E_minus X Y : E (fun w => X w - Y w) = E X - E Y.
Proof.
  replace (E X - E Y) with (E X + (-1) * E Y) by lra.
  rewrite <- (E_scal _ HE), <- (E_plus _ HE). apply (E_ext _ HE). intro; lra.
Qed.
Lemma E_eval {K} (mon : Om -> K -> R) (l : list (K * Q)) :
  E (fun w => eval (mon w) l) = eval (fun k => E (fun w => mon w k)) l.
Proof.
  induction l as [|[k v] r IH]; simpl; [apply E_0|].
  rewrite (E_plus _ HE), (E_scal _ HE), IH. reflexivity.
Qed.
End E.
