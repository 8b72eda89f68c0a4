(** Meaning of a polynomial: real value under a valuation of its monomials, and
    coefficient of a key. *)
From Coq Require Export Reals Qreals.
From Verif.Base Require Export Prelude.

(** Value of a finite formal sum [sum v * mon k]. *)
Fixpoint eval {K : Type} (mon : K -> R) (l : list (K * Q)) : R :=
  match l with
  | [] => 0%R
  | (k, v) :: r => (Q2R v * mon k + eval mon r)%R
  end.

(** Total coefficient of a key (0 if absent). *)
Fixpoint coeff {K : Type} `{Key K} (k : K) (l : list (K * Q)) : Q :=
  match l with
  | [] => 0%Q
  | (k', v) :: r => if keqb k' k then (v + coeff k r)%Q else coeff k r
  end.

(** Integer powers, Python's [x ** n] on reals (x <> 0 when n < 0). *)
Definition pw (x : R) (n : Z) : R := powerRZ x n.

(** Well-formed dict: no duplicated key. *)
Definition uniq {K : Type} (l : list (K * Q)) : Prop := NoDup (map fst l).

(** No stored zero. *)
Definition nonzero {K : Type} (l : list (K * Q)) : Prop :=
  Forall (fun kv => ~ (snd kv == 0)%Q) l.

(** Outcome [r] is a normal return whose value satisfies [P]. *)
Definition returns {A} (r : res A) (P : A -> Prop) : Prop :=
  match r with Ok a => P a | Err _ => False end.
