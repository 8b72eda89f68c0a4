(** The one-factor SV model over one interval [s0, s0+h]:
      v_{s0+h} - v_{s0} = k (theta h - int v) + sigma I,
      y = mu h - (int v)/2 + rho I + sqrt(1-rho^2) I*,
    with v_{s0} stationary, IE, I, I* the Ito integrals of Spec/Ito.v. *)
From Verif.Spec Require Export Ito Expect Gamma.
Local Open Scope R_scope.

Record fpar := mkF { fk : R; fh : R; fmu : R; fth : R; fsg : R; frho : R }.

Definition eKH (p : fpar) : R := exp (- (fk p * fh p)).

(** variance at the end of the interval that starts at s0 with variance v0 *)
Definition v_end (p : fpar) (s0 v0 ie : R) : R :=
  eKH p * v0 + (1 - eKH p) * fth p + fsg p * exp (- (fk p * (s0 + fh p))) * ie.

(** integrated variance, from the integrated equation of v *)
Definition int_v (p : fpar) (s0 v0 ie i : R) : R :=
  fth p * fh p - (v_end p s0 v0 ie - v0) / fk p + fsg p * i / fk p.

(** log-return over the interval *)
Definition ret (p : fpar) (s0 v0 ie i is : R) : R :=
  fmu p * fh p - int_v p s0 v0 ie i / 2 + frho p * i + sqrt (1 - frho p ^ 2) * is.

(** values of the symbols 'e^{-kh}','h','k^{-}','mu','theta','sigma_v','rho','sqrt(1-rho^2)' *)
Definition fvals (p : fpar) : list R :=
  [eKH p; fh p; / fk p; fmu p; fth p; fsg p; frho p; sqrt (1 - frho p ^ 2)].

(** 'e^{-kh}','h','k^{-}','theta','sigma_v','rho','sqrt(1-rho^2)' *)
Definition cvals (p : fpar) : list R :=
  [eKH p; fh p; / fk p; fth p; fsg p; frho p; sqrt (1 - frho p ^ 2)].

(** V has the moments of the stationary law up to order L *)
Definition stationary {Om} (E : (Om -> R) -> R) (p : fpar) (L : Z) (V : Om -> R) : Prop :=
  forall n, (0 <= n <= L)%Z ->
    E (fun w => V w ^ Z.to_nat n) = gmom (fth p) (fsg p ^ 2 / fk p) (Z.to_nat n).

(** given V, the joint moments of IE, I and I* are the ones of the Ito system (tower
    property), up to total order L, jointly with any product of powers of the variables
    [hist] observed before *)
Definition tower {Om} (E : (Om -> R) -> R) (p : fpar) (s0 : R) (L : Z) (hist : list (Om -> R))
  (V IE I Is : Om -> R) : Prop :=
  exists M, (forall v, ito_moments (mkPar (fk p) s0 v (fth p) (fsg p)) (M v)) /\
  forall hs n a b d, length hs = length hist -> Forall (fun x => 0 <= x)%Z hs ->
    (0 <= n)%Z -> (0 <= a)%Z -> (0 <= b)%Z -> (0 <= d)%Z ->
    (fold_right Z.add 0 hs + n + a + b + d <= L)%Z ->
    E (fun w => powprod (map (fun X => X w) hist) hs *
                (V w ^ Z.to_nat n * IE w ^ Z.to_nat a * I w ^ Z.to_nat b * Is w ^ Z.to_nat d))
    = E (fun w => powprod (map (fun X => X w) hist) hs * (V w ^ Z.to_nat n * M (V w) (a, b, d) (fh p))).
