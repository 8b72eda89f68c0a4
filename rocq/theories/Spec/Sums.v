(** Finite sums and products of reals over lists. *)
From Coq Require Export Reals.
From Verif.Spec Require Export Eval.
Local Open Scope R_scope.

Fixpoint sumR {A : Type} (f : A -> R) (l : list A) : R :=
  match l with
  | [] => 0
  | x :: r => f x + sumR f r
  end.

Fixpoint prodR {A : Type} (f : A -> R) (l : list A) : R :=
  match l with
  | [] => 1
  | x :: r => f x * prodR f r
  end.

(** Monomial [x_1^k_1 ... x_n^k_n] (natural exponents). *)
Fixpoint powprod (xs : list R) (ks : list Z) : R :=
  match xs, ks with
  | x :: xr, k :: kr => x ^ Z.to_nat k * powprod xr kr
  | _, _ => 1
  end.

(** Monomial with integer exponents. *)
Fixpoint monx (xs : list R) (ks : list Z) : R :=
  match xs, ks with
  | x :: xr, k :: kr => pw x k * monx xr kr
  | _, _ => 1
  end.

(** Python list access of reals; IndexError cases are excluded by hypotheses. *)
Definition nthR (l : list R) (i : Z) : R := nth (Z.to_nat i) l 0.

