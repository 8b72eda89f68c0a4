(** Moment generating functions of N(mu, s2) and of a compound Poisson sum with
    intensity L and N(mu, s2) jumps.  The n-th moment is the n-th derivative at 0. *)
From Coquelicot Require Import Coquelicot.
From Verif.Spec Require Export Expect.
Local Open Scope R_scope.

Definition mgf_normal (mu s2 : R) (s : R) : R := exp (mu * s + s2 / 2 * s ^ 2).
Definition mgf_cpp (L mu s2 : R) (s : R) : R := exp (L * (mgf_normal mu s2 s - 1)).

(** J has the moments of the compound Poisson sum with intensity L and N(mu, s^2) jumps *)
Definition cpp_moments {Om} (E : (Om -> R) -> R) (N : nat) (L mu s : R) (J : Om -> R) : Prop :=
  forall i, (i <= N)%nat -> E (fun w => J w ^ i) = Derive_n (mgf_cpp L mu (s ^ 2)) i 0.

(** uncorrelated powers up to total order N *)
Definition indep {Om} (E : (Om -> R) -> R) (N : nat) (Y J : Om -> R) : Prop :=
  forall i j, (i + j <= N)%nat -> E (fun w => Y w ^ i * J w ^ j) = E (fun w => Y w ^ i) * E (fun w => J w ^ j).
Definition indep3 {Om} (E : (Om -> R) -> R) (N : nat) (Y0 Y1 J0 J1 : Om -> R) : Prop :=
  forall i0 i1 j0 j1, (i0 + i1 + j0 + j1 <= N)%nat ->
    E (fun w => Y0 w ^ i0 * Y1 w ^ i1 * (J0 w ^ j0 * J1 w ^ j1))
    = E (fun w => Y0 w ^ i0 * Y1 w ^ i1) * (E (fun w => J0 w ^ j0) * E (fun w => J1 w ^ j1)).
