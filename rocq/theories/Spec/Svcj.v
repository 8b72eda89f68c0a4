(** The stochastic volatility model with contemporaneous jumps of mdl_svcj:
      dv_t = k (theta - v_t) dt + sigma sqrt(v_t) dw^v_t + dZ_t,
      dy_t = (mu - v_t/2) dt + sqrt(v_t) dw_t + dZ^s_t,   corr(dw, dw^v) = rho,
    Z and Z^s jump at the same times (rate lmbd); the jumps are J^v, exponential with mean mu_v,
    and J^s = J* + rho_J J^v, J* normal with mean mu_s and standard deviation sigma_s. *)
From Coquelicot Require Import Coquelicot.
From Verif.Spec Require Export Expect Volterra Cpp.
Local Open Scope R_scope.

(** Moment generating function of (int_s^t e^{ku} dZ_u, int_s^t dZ_u, int_s^t dZ*_u) at (a1, a2, a3):
    a jump at time u contributes (e^{ku} J, J, J* ), with transform
    1 / (1 - mu_v (e^{ku} a1 + a2)) exp(mu_s a3 + sigma_s^2 a3^2 / 2)  (Campbell's formula). *)
Definition mgf_ieziziz (k lam mv ms ss s t a1 a2 a3 : R) : R :=
  exp (lam * RInt (fun u => / (1 - mv * (exp (k * u) * a1 + a2)) * mgf_normal ms (ss ^ 2) a3 - 1) s t).

(** values of the symbols of the keys of moment_ieziziz, in the order of [keyfor] *)
Definition ieziziz_vals (k lam mv ms ss s t : R) : list R :=
  [exp (k * t); exp (k * s); t - s; / k; lam; mv; ms; ss].

(** Ito's formula for IE^n1 I^n2 I*^n3 IEZ^n4 IZ^n5 IZ*^n6 at time t, where
      IE = int e^{ks} sqrt(v_s) dw^v_s,  I = int sqrt(v_s) dw^v_s,  I* = int sqrt(v_s) dw*_s,
      IEZ = int e^{ks} dZ_s,  IZ = int dZ_s,  IZ* = int dZ*_s,   w*, w^v independent,
      v_s = e^{-ks} a + b + sg e^{-ks} IE_s + e^{-ks} IEZ_s.
    The brackets are d<IE> = e^{2ks} v ds, d<I> = v ds, d<IE,I> = e^{ks} v ds, d<I*> = v ds; a jump
    (J, J* ) at time s adds (e^{ks} J, J, J* ) to (IEZ, IZ, IZ* ) and E[J^m J*^l] = m! mu_v^m E[J*^l]. *)
Notation cj_idx := (Z * Z * Z * Z * Z * Z)%type.
Definition cj_dom (i : cj_idx) : Prop :=
  let '(n1, n2, n3, n4, n5, n6) := i in
  (0 <= n1 /\ 0 <= n2 /\ 0 <= n3 /\ 0 <= n4 /\ 0 <= n5 /\ 0 <= n6)%Z.
Definition cj_init (i : cj_idx) : R := match i with (0, 0, 0, 0, 0, 0)%Z => 1 | _ => 0 end.

(** coefficient c, power w of e^{ks} and remaining orders for each bracket *)
Definition cj_brackets (n1 n2 n3 : Z) : list (R * nat * (Z * Z * Z)) :=
  (if (2 <=? n1)%Z then [(IZR (n1 * (n1 - 1)) / 2, 2%nat, (n1 - 2, n2, n3)%Z)] else []) ++
  (if (2 <=? n2)%Z then [(IZR (n2 * (n2 - 1)) / 2, 0%nat, (n1, n2 - 2, n3)%Z)] else []) ++
  (if (1 <=? n1)%Z && (1 <=? n2)%Z then [(IZR (n1 * n2), 1%nat, (n1 - 1, n2 - 1, n3)%Z)] else []) ++
  (if (2 <=? n3)%Z then [(IZR (n3 * (n3 - 1)) / 2, 0%nat, (n1, n2, n3 - 2)%Z)] else []).

Definition cj_sys (k a b sg lam mv ms ss : R) (i : cj_idx) : list ((R -> R) * cj_idx) :=
  let '(n1, n2, n3, n4, n5, n6) := i in
  flat_map (fun '(c, w, (a1, a2, a3)) =>
    [ (fun s => c * exp (k * s) ^ w * (exp (- (k * s)) * a + b), (a1, a2, a3, n4, n5, n6));
      (fun s => c * exp (k * s) ^ w * (sg * exp (- (k * s))), (a1 + 1, a2, a3, n4, n5, n6)%Z);
      (fun s => c * exp (k * s) ^ w * exp (- (k * s)), (a1, a2, a3, n4 + 1, n5, n6)%Z) ]) (cj_brackets n1 n2 n3)
  ++ flat_map (fun i4 => flat_map (fun i5 => flat_map (fun i6 =>
       if (i4 + i5 + i6 =? 0)%Z then []
       else [ (fun s => IZR (mcomb n4 i4 * mcomb n5 i5 * mcomb n6 i6) *
                 (lam * (IZR (fact (i4 + i5)) * mv ^ Z.to_nat (i4 + i5) * exp (k * s) ^ Z.to_nat i4
                         * Derive_n (mgf_normal ms (ss ^ 2)) (Z.to_nat i6) 0)),
               (n1, n2, n3, n4 - i4, n5 - i5, n6 - i6)%Z) ])
       (range 0 (n6 + 1))) (range 0 (n5 + 1))) (range 0 (n4 + 1)).

(** parameters: k, v_0, theta, sigma, lmbd, mu_v, mu_s, sigma_s *)
Record svcj := mkSvcj { jk : R; jv0 : R; jth : R; jsg : R; jlam : R; jmv : R; jms : R; jss : R }.

(** [M (n1,...,n6) t] are the conditional moments E[IE^n1 I^n2 I*^n3 IEZ^n4 IZ^n5 IZ*^n6 | v_0] *)
Definition svcj_moments (p : svcj) (M : cj_idx -> R -> R) : Prop :=
  vsol cj_dom (cj_sys (jk p) (jv0 p - jth p) (jth p) (jsg p) (jlam p) (jmv p) (jms p) (jss p)) cj_init M.

(** values of the symbols of the keys of moment_ieii_ieziziz *)
Definition ieii6_vals (p : svcj) (t : R) : list R :=
  [exp (jk p * t); t; / jk p; jv0 p - jth p; jth p; jsg p; jlam p; jmv p; jms p; jss p].

(** ** the return *)
(** integrated variance int_0^t v_s ds: from the solution of the variance equation
    v_s = theta + e^{-ks} (v_0-theta) + sigma e^{-ks} IE_s + e^{-ks} IEZ_s and integration by parts,
    int_0^t e^{-ks} IE_s ds = (I_t - e^{-kt} IE_t) / k and similarly for IEZ. *)
Definition svcj_iv (p : svcj) (t IE II IEZ IZ : R) : R :=
  jth p * t + (jv0 p - jth p) * (1 - exp (- (jk p * t))) / jk p + jsg p / jk p * (II - exp (- (jk p * t)) * IE)
  + / jk p * (IZ - exp (- (jk p * t)) * IEZ).
(** y_t - y_0 = (mu t - IV/2) + rho I + sqrt(1-rho^2) I* + rhoJ IZ + IZ*, with dw = rho dw^v + sqrt(1-rho^2) dw* *)
Definition svcj_y (p : svcj) (mu rho rhoJ t IE II IIs IEZ IZ IZs : R) : R :=
  mu * t - svcj_iv p t IE II IEZ IZ / 2 + rho * II + sqrt (1 - rho ^ 2) * IIs + rhoJ * IZ + IZs.

(** The random variables IE, I, I*, IEZ, IZ, IZ* have the conditional moments up to total order n *)
Definition has_moments6 {Om} (p : svcj) (t : R) (E : (Om -> R) -> R) (IE II IIs IEZ IZ IZs : Om -> R) (n : nat) : Prop :=
  exists M, svcj_moments p M /\ forall n1 n2 n3 n4 n5 n6, (n1 + n2 + n3 + n4 + n5 + n6 <= n)%nat ->
    E (fun w => IE w ^ n1 * II w ^ n2 * IIs w ^ n3 * IEZ w ^ n4 * IZ w ^ n5 * IZs w ^ n6)
    = M (Z.of_nat n1, Z.of_nat n2, Z.of_nat n3, Z.of_nat n4, Z.of_nat n5, Z.of_nat n6) t.

Definition with_jv0 (p : svcj) (x : R) : svcj := mkSvcj (jk p) x (jth p) (jsg p) (jlam p) (jmv p) (jms p) (jss p).
(** the same with a random initial variance V0: given V0 the moments are the conditional ones *)
Definition joint_moments6 {Om} (p : svcj) (t : R) (E : (Om -> R) -> R) (V0 IE II IIs IEZ IZ IZs : Om -> R) (n : nat) : Prop :=
  exists M, (forall x, svcj_moments (with_jv0 p x) (M x)) /\
    forall c n1 n2 n3 n4 n5 n6, (c + n1 + n2 + n3 + n4 + n5 + n6 <= n)%nat ->
      E (fun w => V0 w ^ c * (IE w ^ n1 * II w ^ n2 * IIs w ^ n3 * IEZ w ^ n4 * IZ w ^ n5 * IZs w ^ n6))
      = E (fun w => V0 w ^ c * M (V0 w) (Z.of_nat n1, Z.of_nat n2, Z.of_nat n3, Z.of_nat n4, Z.of_nat n5, Z.of_nat n6) t).

(** values of the symbols of the keys of moment_y, with the fifth symbol [a] = v_0-theta or E[v] *)
Definition svcj_vals (p : svcj) (mu rho rhoJ t a : R) : list R :=
  [exp (jk p * t); t; / jk p; mu; a; jth p; jsg p; rho; jlam p; jmv p; rhoJ; jms p; jss p].
(** ... and of remove_mu_column *)
Definition svcj_vals12 (p : svcj) (rho rhoJ t a : R) : list R :=
  [exp (- (jk p * t)); t; / jk p; a; jth p; jsg p; rho; jlam p; jmv p; rhoJ; jms p; jss p].
