(** Changing the sign of parameters. *)
From Coq Require Import Reals.
From Verif.Base Require Import Prelude.
From Verif.Spec Require Export Units.

Definition is_in (s : string) (ns : list string) : bool := existsb (String.eqb s) ns.
(** the parameters named in [ns] change their sign *)
Definition flip (ns : list string) (par : string -> R) (s : string) : R :=
  if is_in s ns then Ropp (par s) else par s.
(** [f] does not change when the parameters named in [ns] change their signs together; its
    derivative with respect to a parameter in [ns] changes its sign; errors are the same *)
Definition even_in (ns : list string) (f : (string -> R) -> res R) (df : (string -> R) -> string -> res R) : Prop :=
  forall par, f (flip ns par) = f par /\
    forall wrt, df (flip ns par) wrt = rmap (fun x => if is_in wrt ns then Ropp x else x) (df par wrt).
