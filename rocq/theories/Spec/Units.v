(** Changing the unit in which time is measured. *)
From Coq Require Import Reals.
From Verif.Base Require Import Prelude.
Local Open Scope string_scope.

(** the parameters that are rates, i.e. have the dimension 1/time: v, theta and sigma_v have it
    because v is a variance per unit of time *)
Definition rates : list string :=
  ["k"; "mu"; "theta"; "sigma_v"; "lambda"; "k1"; "k2"; "theta1"; "theta2"; "sigma_v1"; "sigma_v2"].
Definition is_rate (s : string) : bool := existsb (String.eqb s) rates.

(** the same model with a unit of time that is [c] times shorter *)
Definition time_unit (c : R) (par : string -> R) (s : string) : R :=
  if s =? "h" then Rmult c (par s) else if is_rate s then Rdiv (par s) c else par s.

(** [f] of the result, if there is one *)
Definition rmap {A B} (f : A -> B) (r : res A) : res B := match r with Ok a => Ok (f a) | Err e => Err e end.
