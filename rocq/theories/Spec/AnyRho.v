(** Values of the monomials of the one-factor models for every correlation parameter rho, also those
    outside of [-1, 1]. *)
From Coq Require Import Reals.
From Verif.Base Require Import Prelude.
From Verif.Model Require Import Nest.
Local Open Scope R_scope.

(** value of a key of mdl_1fsv/mom.py, with (1-rho^2)^(n/2) as an integer power *)
Definition val8 (par : string -> R) (k : list Z) : R :=
  exp (- IZR (nthZ k 0) * par "k"%string * par "h"%string) * powerRZ (par "h"%string) (nthZ k 1) * powerRZ (par "k"%string) (- nthZ k 2) *
  powerRZ (par "mu"%string) (nthZ k 3) * powerRZ (par "theta"%string) (nthZ k 4) * powerRZ (par "sigma_v"%string) (nthZ k 5) *
  powerRZ (par "rho"%string) (nthZ k 6) * powerRZ (1 - par "rho"%string ^ 2) (nthZ k 7 / 2).
Definition val7 (par : string -> R) (k : list Z) : R :=
  exp (- IZR (nthZ k 0) * par "k"%string * par "h"%string) * powerRZ (par "h"%string) (nthZ k 1) * powerRZ (par "k"%string) (- nthZ k 2) *
  powerRZ (par "theta"%string) (nthZ k 3) * powerRZ (par "sigma_v"%string) (nthZ k 4) *
  powerRZ (par "rho"%string) (nthZ k 5) * powerRZ (1 - par "rho"%string ^ 2) (nthZ k 6 / 2).
(** mdl_1fsvj: three more entries *)
Definition val11 (par : string -> R) (k : list Z) : R :=
  val8 par k * (powerRZ (par "lambda"%string) (nthZ k 8) * powerRZ (par "mu_j"%string) (nthZ k 9) * powerRZ (par "sigma_j"%string) (nthZ k 10)).
Definition val10 (par : string -> R) (k : list Z) : R :=
  val7 par k * (powerRZ (par "lambda"%string) (nthZ k 7) * powerRZ (par "mu_j"%string) (nthZ k 8) * powerRZ (par "sigma_j"%string) (nthZ k 9)).
(** the dict with the values [q] *)
Definition full (q : string -> R) : string -> option R := fun s => Some (q s).
