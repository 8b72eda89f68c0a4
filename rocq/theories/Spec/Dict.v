(** Functions of a parameter dict that may lack names or hold values at which the function is
    not defined. *)
From Coq Require Import Reals.
From Verif.Base Require Import Prelude.
From Verif.Spec Require Import Eval.
From Verif.Model Require Import Poly.
Local Open Scope R_scope.

(** [par] holds at least the names [ns], with the values [q] *)
Definition agrees (ns : list string) (par : string -> option R) (q : string -> R) : Prop := forall s, In s ns -> par s = Some (q s).

(** [f] raises KeyError as soon as one of the names [ns] is missing.  If they are all there, with
    values [q] in the domain [dom], then [f] raises ZeroDivisionError exactly when [undef q], and
    otherwise does what [g] does at [q]. *)
Definition dict_spec (ns : list string) (dom : (string -> R) -> Prop) (f : (string -> option R) -> res R)
    (undef : (string -> R) -> Prop) (g : (string -> R) -> res R) : Prop :=
  (forall par s, In s ns -> par s = None -> f par = Err KeyError) /\
  (forall par q, agrees ns par q -> dom q ->
     (undef q -> f par = Err ZeroDivisionError) /\ (~ undef q -> f par = g q)).

(** some monomial of the polynomial is not defined at [q] *)
Definition undef_poly {K} (bad : (string -> R) -> K -> Prop) (p : res (Poly K)) (q : string -> R) : Prop :=
  exists r k c, p = Ok r /\ In (k, c) (items r) /\ bad q k.
(** one factor: a negative power of k = 0; the third entry of the key is the power of 1/k *)
Definition neg_k (q : string -> R) (K : list Z) : Prop := q "k"%string = 0 /\ exists n, nth_error K 2 = Some n /\ (0 < n)%Z.
(** two factors: a denominator n1 k1 + n2 k2 that vanishes *)
Definition zero_den (q : string -> R) (K : list (Z * Z * Z) * ((Z * Z) * list Z)) : Prop :=
  exists a b e, In (a, b, e) (fst K) /\ (0 < e)%Z /\ IZR a * q "k1"%string + IZR b * q "k2"%string = 0.
