(** Parameter dictionaries and the values they give to the symbols of the keys. *)
From Verif.Spec Require Export Sums.
Local Open Scope R_scope.

(** dict with one entry replaced *)
Definition upd (par : string -> R) (n : string) (x : R) : string -> R :=
  fun s => if (s =? n)%string then x else par s.

(** every monomial in [l] has one exponent per symbol and is differentiable in each symbol at
    the values [vals]: no negative power of 0 *)
Definition fits (vals : list R) (l : list (list Z * Q)) : Prop :=
  forall k c, In (k, c) l -> Forall2 (fun x n => x <> 0 \/ (0 <= n)%Z) vals k.

Section Vals.
Variable par : string -> R.
(** 'e^{-kh}','h','k^{-}','mu','theta','sigma_v','rho','sqrt(1-rho^2)' *)
Definition v_m1 : list R :=
  [exp (- (par "k"%string * par "h"%string)); par "h"%string; / par "k"%string; par "mu"%string; par "theta"%string;
   par "sigma_v"%string; par "rho"%string; sqrt (1 - par "rho"%string ^ 2)].
(** 'e^{-kh}','h','k^{-}','theta','sigma_v','rho','sqrt(1-rho^2)' *)
Definition v_cm1 : list R :=
  [exp (- (par "k"%string * par "h"%string)); par "h"%string; / par "k"%string; par "theta"%string;
   par "sigma_v"%string; par "rho"%string; sqrt (1 - par "rho"%string ^ 2)].
(** 'lambda','mu_j','sigma_j' *)
Definition v_jump : list R := [par "lambda"%string; par "mu_j"%string; par "sigma_j"%string].
End Vals.

(** ** two-factor models: keys (t0, (t1, [k[2]; ...])) *)

(** 'h','mu','theta1','sigma_v1','theta2','sigma_v2' and the same without 'mu' *)
Definition v2_m (par : string -> R) : list R :=
  [par "h"%string; par "mu"%string; par "theta1"%string; par "sigma_v1"%string; par "theta2"%string; par "sigma_v2"%string].
Definition v2_cm (par : string -> R) : list R :=
  [par "h"%string; par "theta1"%string; par "sigma_v1"%string; par "theta2"%string; par "sigma_v2"%string].
(** no denominator (n1 k1 + n2 k2)^i, i > 0, vanishes *)
Definition dens_ok (par : string -> R) (t0 : list (Z * Z * Z)) : Prop :=
  forall a b e, In (a, b, e) t0 -> IZR a * par "k1"%string + IZR b * par "k2"%string <> 0 \/ (e <= 0)%Z.
(** every monomial is defined and differentiable at the parameter point *)
Definition fits2 (par : string -> R) (vals : list R) (l : list ((list (Z * Z * Z) * ((Z * Z) * list Z)) * Q)) : Prop :=
  forall t0 t1 x c, In ((t0, (t1, x)), c) l ->
    dens_ok par t0 /\ Forall2 (fun v n => v <> 0 \/ (0 <= n)%Z) vals x.
