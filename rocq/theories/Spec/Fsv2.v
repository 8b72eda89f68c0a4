(** The two-factor SV model over one interval [s0, s0+h]: for i = 1, 2
      vi_{s0+h} - vi_{s0} = ki (theta_i h - int vi) + sigma_i Ii,
      y = mu h - (int v1 + int v2)/2 + I*,
    with independent stationary v1, v2; IEi, Ii, I* are the Ito integrals of Spec/Ito2.v. *)
From Verif.Spec Require Export Fsv1 Ito2.
Local Open Scope R_scope.

Record f2par := mkF2 { gk1 : R; gk2 : R; gh : R; gmu : R; gth1 : R; gsg1 : R; gth2 : R; gsg2 : R }.

(** the two variance factors; v_end and int_v do not use fmu and frho *)
Definition fac_1 (p : f2par) : fpar := mkF (gk1 p) (gh p) 0 (gth1 p) (gsg1 p) 0.
Definition fac_2 (p : f2par) : fpar := mkF (gk2 p) (gh p) 0 (gth2 p) (gsg2 p) 0.

(** log-return over the interval *)
Definition ret2 (p : f2par) (s0 v1 v2 ie1 i1 ie2 i2 is : R) : R :=
  gmu p * gh p - (int_v (fac_1 p) s0 v1 ie1 i1 + int_v (fac_2 p) s0 v2 ie2 i2) / 2 + is.

(** value of a monomial: t0 = ((n11,n21,i1), ...) stands for prod (n1 k1 + n2 k2)^{-i},
    t1 = (n1, n2) for e^{-(n1 k1 + n2 k2) h}, the rest for powers of [xs] *)
Definition fmon (k1 k2 h : R) (xs : list R) (k : list (Z * Z * Z) * ((Z * Z) * list Z)) : R :=
  let '(d, ((a, b), x)) := k in
  denv k1 k2 d * exp (- ((IZR a * k1 + IZR b * k2) * h)) * monx xs x.
(** 'h','mu','theta1','sigma_v1','theta2','sigma_v2' *)
Definition f2vals (p : f2par) : list R := [gh p; gmu p; gth1 p; gsg1 p; gth2 p; gsg2 p].
(** 'h','theta1','sigma_v1','theta2','sigma_v2' *)
Definition c2vals (p : f2par) : list R := [gh p; gth1 p; gsg1 p; gth2 p; gsg2 p].

(** v1 and v2 have the moments of independent stationary laws up to total order L *)
Definition stationary2 {Om} (E : (Om -> R) -> R) (p : f2par) (L : Z) (V1 V2 : Om -> R) : Prop :=
  forall m n, (0 <= m)%Z -> (0 <= n)%Z -> (m + n <= L)%Z ->
    E (fun w => V1 w ^ Z.to_nat m * V2 w ^ Z.to_nat n)
    = gmom (gth1 p) (gsg1 p ^ 2 / gk1 p) (Z.to_nat m) * gmom (gth2 p) (gsg2 p ^ 2 / gk2 p) (Z.to_nat n).

Definition par_at (p : f2par) (s0 v1 v2 : R) : par2 :=
  mkPar2 (gk1 p) (gk2 p) s0 v1 (gth1 p) (gsg1 p) v2 (gth2 p) (gsg2 p).

(** given V1 and V2, the joint moments of IE1, I1, IE2, I2 and I* are [M (V1,V2)] (tower property),
    up to total order L, jointly with any product of powers of the variables [hist] observed before *)
Definition tower2 {Om} (E : (Om -> R) -> R) (M : R -> R -> ito2_idx -> R) (L : Z) (hist : list (Om -> R))
  (V1 V2 IE1 I1 IE2 I2 Is : Om -> R) : Prop :=
  forall hs m n a b c d e, length hs = length hist -> Forall (fun x => 0 <= x)%Z hs ->
    (0 <= m)%Z -> (0 <= n)%Z -> ito2_dom (a, b, c, d, e) ->
    (fold_right Z.add 0 hs + m + n + a + b + c + d + e <= L)%Z ->
    E (fun w => powprod (map (fun X => X w) hist) hs *
         (V1 w ^ Z.to_nat m * V2 w ^ Z.to_nat n * (IE1 w ^ Z.to_nat a * I1 w ^ Z.to_nat b *
          IE2 w ^ Z.to_nat c * I2 w ^ Z.to_nat d * Is w ^ Z.to_nat e)))
    = E (fun w => powprod (map (fun X => X w) hist) hs *
         (V1 w ^ Z.to_nat m * V2 w ^ Z.to_nat n * M (V1 w) (V2 w) (a, b, c, d, e))).
