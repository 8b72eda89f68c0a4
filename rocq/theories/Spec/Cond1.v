(** The one-factor SV model over [0, h] given v_0: joint moments of the Ito integrals up to
    total order L, and the values of the symbols used by mdl_1fsv/cond_cmom.py. *)
From Verif.Spec Require Export Fsv1.
Local Open Scope R_scope.

Definition cond_ito {Om} (E : (Om -> R) -> R) (p : fpar) (v0 : R) (L : Z) (IE I Is : Om -> R) : Prop :=
  exists M, ito_moments (mkPar (fk p) 0 v0 (fth p) (fsg p)) M /\
  forall a b d, (0 <= a)%Z -> (0 <= b)%Z -> (0 <= d)%Z -> (a + b + d <= L)%Z ->
    E (fun w => IE w ^ Z.to_nat a * I w ^ Z.to_nat b * Is w ^ Z.to_nat d) = M (a, b, d) (fh p).

(** 'e^{kt}','t','k^{-}','v_0-theta','theta','sigma','sigma/2k','rho-sigma/2k','sqrt(1-rho^2)' *)
Definition s9v (k h v th sg rho : R) : list R :=
  [exp (k * h); h; / k; v - th; th; sg; sg / (2 * k); rho - sg / (2 * k); sqrt (1 - rho ^ 2)].
(** 'e^{-kt}','t','k^{-}','v_0-theta','theta','sigma','rho','sqrt(1-rho^2)' *)
Definition s8v (k h v th sg rho : R) : list R :=
  [exp (- (k * h)); h; / k; v - th; th; sg; rho; sqrt (1 - rho ^ 2)].
(** 'e^{-kt}','t','k^{-}','v_0-theta','theta','sigma','rho' *)
Definition s7v (k h v th sg rho : R) : list R := [exp (- (k * h)); h; / k; v - th; th; sg; rho].
(** 'e^{-kt}','t','k^{-}','v_0','theta','sigma','rho' *)
Definition s7vv (k h v th sg rho : R) : list R := [exp (- (k * h)); h; / k; v; th; sg; rho].

(** keys of the conditional central moments: nine components, powers of everything but
    e^{kt}, t, k^{-} non-negative, the power of sqrt(1-rho^2) even *)
Definition s9ok (k : list Z) : Prop :=
  length k = 9%nat /\ (forall i, 3 <= i < 9 -> 0 <= nth (Z.to_nat i) k 0)%Z /\ Z.even (nth 8 k 0%Z) = true.
