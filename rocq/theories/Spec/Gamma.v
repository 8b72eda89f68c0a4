(** Moments of the stationary (Gamma) law of the square-root diffusion. *)
From Coq Require Export Reals.
Local Open Scope R_scope.

(** n-th moment of the Gamma law with mean th and variance th x/2 (x = sigma^2/k):
    prod_{i<n} (th + i x/2); tied to its moment generating function in C13. *)
Fixpoint gmom (th x : R) (n : nat) : R :=
  match n with O => 1 | S m => gmom th x m * (th + INR m * x / 2) end.
