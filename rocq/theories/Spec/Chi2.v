(** The noncentral chi-square law, by its moment generating function, and draws from it. *)
From Coquelicot Require Import Coquelicot.
From Verif.Spec Require Export Expect.
Local Open Scope R_scope.

(** E[e^{sX}] for X noncentral chi-square with d degrees of freedom and noncentrality l, s < 1/2 *)
Definition mgf_ncx2 (d l s : R) : R := Rpower (1 - 2 * s) (- (d / 2)) * exp (l * s / (1 - 2 * s)).
Definition ncmom (d l : R) (n : nat) : R := Derive_n (mgf_ncx2 d l) n 0.

(** [X c w d l] is what the c-th draw gives when asked for d degrees of freedom and noncentrality l.
    A variable known before draw c: *)
Definition known {Om} (X : nat -> Om -> R -> R -> R) (c : nat) (f : Om -> R) : Prop :=
  forall w w', (forall i d l, (i < c)%nat -> X i w d l = X i w' d l) -> f w = f w'.
(** Draws 0, ..., C-1 have, given the earlier ones, the moments up to order L of the law asked for;
    the noncentrality may depend on the earlier draws. *)
Record ncx2_draws {Om} (E : (Om -> R) -> R) (X : nat -> Om -> R -> R -> R) (C L : nat) : Prop := {
  nc_E : expectation E;
  nc_1 : E (fun _ => 1) = 1;
  nc_pos : forall c w d l, 0 <= X c w d l;
  nc_mom : forall c n d l f, (c < C)%nat -> (n <= L)%nat -> 0 < d -> (forall w, 0 <= l w) -> known X c l -> known X c f ->
    E (fun w => f w * X c w d (l w) ^ n) = E (fun w => f w * ncmom d (l w) n);
}.

(** jump times strictly after t and in strict order, sizes >= 0 *)
Fixpoint strictly (t : R) (z : list (R * R)) : Prop :=
  match z with nil => True | cons sj r => t < fst sj /\ 0 <= snd sj /\ strictly (fst sj) r end.
