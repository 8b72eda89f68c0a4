(** Linear expectation operators on real random variables over a sample space. *)
From Verif.Spec Require Export Sums.
Local Open Scope R_scope.

Record expectation {Om : Type} (E : (Om -> R) -> R) : Prop := {
  E_ext : forall X Y, (forall w, X w = Y w) -> E X = E Y;
  E_plus : forall X Y, E (fun w => X w + Y w) = E X + E Y;
  E_scal : forall c X, E (fun w => c * X w) = c * E X;
}.

(** Example of such operators: finite weighted point masses. *)
Definition Efin {Om : Type} (ps : list (R * Om)) (X : Om -> R) : R :=
  sumR (fun p => fst p * X (snd p)) ps.
