(** Relations between the functions of one model that return numbers: raw moments, central moments, and the
    raw moments of the same quantity moved by a constant. *)
From Coq Require Import Reals ZArith.
From Verif.Base Require Import Prelude.
Local Open Scope R_scope.

(** [ms] are the numbers [m] returns at the orders 1, 2, ..., and 1 at order 0 *)
Definition returns_moments (m : Z -> res R) (ms : nat -> R) : Prop :=
  ms 0%nat = 1 /\ forall l, (1 <= l)%nat -> m (Z.of_nat l) = Ok (ms l).
(** sum_i C(l,i) ms(i) c^(l-i): the moment of order l of Y + c when [ms] are the moments of Y *)
Definition moved (ms : nat -> R) (c : R) (l : nat) : R := sum_f_R0 (fun i => Binomial.C l i * ms i * c ^ (l - i)) l.

(** the central moments [cm] belong to the raw moments [m] *)
Definition central_of (m cm : Z -> res R) : Prop :=
  exists ms, returns_moments m ms /\ forall l, (1 <= l)%nat -> cm (Z.of_nat l) = Ok (moved ms (- ms 1%nat) l).
(** the raw moments [m'] are those of the quantity with raw moments [m] moved by [c] *)
Definition moved_by (c : R) (m m' : Z -> res R) : Prop :=
  exists ms, returns_moments m ms /\ forall l, (1 <= l)%nat -> m' (Z.of_nat l) = Ok (moved ms c l).

(** cov of the pair moved by [c]: sum_{i,j} C(l1,i) C(l2,j) cs(i,j) c^(l1-i) c^(l2-j) *)
Definition moved2 (cs : nat -> nat -> R) (c : R) (l1 l2 : nat) : R :=
  sum_f_R0 (fun i => sum_f_R0 (fun j => Binomial.C l1 i * Binomial.C l2 j * cs i j * c ^ (l1 - i) * c ^ (l2 - j)) l2) l1.
(** the covariances [cov'] of powers are those of the pair of quantities with covariances [cov], both moved by [c] *)
Definition cov_moved_by (c : R) (cov cov' : Z -> Z -> res R) : Prop :=
  exists cs, (forall i j, cov (Z.of_nat i) (Z.of_nat j) = Ok (cs i j)) /\
    forall l1 l2, cov' (Z.of_nat l1) (Z.of_nat l2) = Ok (moved2 cs c l1 l2).
