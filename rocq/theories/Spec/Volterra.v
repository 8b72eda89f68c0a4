(** Systems of integral equations in the form in which Ito's formula gives them
    for the mixed moments of stochastic integrals:
      M_i(t) = init_i + int_0^t sum_{(c, j) in sys i} c(s) M_j(s) ds   (t >= 0). *)
From Coq Require Export Reals List.
From Coquelicot Require Import Coquelicot.
From Verif.Spec Require Export Sums.
Local Open Scope R_scope.

Section V.
Context {I : Type}.

Definition lin_rhs (sys : I -> list ((R -> R) * I)) (M : I -> R -> R) (i : I) (s : R) : R :=
  sumR (fun cj => fst cj s * M (snd cj) s) (sys i).

(** [M] solves the system on the indices in [dom] *)
Definition vsol (dom : I -> Prop) (sys : I -> list ((R -> R) * I)) (init : I -> R)
  (M : I -> R -> R) : Prop :=
  forall i, dom i -> forall t, 0 <= t -> is_RInt (lin_rhs sys M i) 0 t (M i t - init i).
End V.
