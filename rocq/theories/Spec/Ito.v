(** The conditional joint moments E[IE^a I^b I*^d | v_0] of the square-root model
      v_{s0+s} = e^{-ks}(v_0 - theta) + theta + sigma e^{-k(s0+s)} IE_s,
      IE_t = int e^{ku} sqrt(v_u) dw_u,  I_t = int sqrt(v_u) dw_u,
      I*_t = int sqrt(v_u) dw^_u   (u from s0 to s0+t; w, w^ independent)
    as the solution of the system that Ito's formula gives for the product
    IE^a I^b I*^d (documented in ito_mom.py:1-190). *)
From Coq Require Export Reals ZArith.
From Verif.Spec Require Export Volterra.
Local Open Scope R_scope.

Record par := mkPar { pk : R; ps0 : R; pv : R; pth : R; psg : R }.

Notation ito_idx := (Z * Z * Z)%type.
Definition ito_dom (i : ito_idx) : Prop :=
  let '(a, b, d) := i in (0 <= a)%Z /\ (0 <= b)%Z /\ (0 <= d)%Z.

(** deterministic part of v_{s0+s} *)
Definition v_mean (p : par) (s : R) : R := exp (- (pk p * s)) * (pv p - pth p) + pth p.

(** c(s) E[v_{s0+s} IE_s^a I_s^b I*_s^d] in terms of the joint moments *)
Definition v_terms (p : par) (c : R -> R) (i : ito_idx) : list ((R -> R) * ito_idx) :=
  let '(a, b, d) := i in
  [ (fun s => c s * v_mean p s, (a, b, d));
    (fun s => c s * (psg p * exp (- (pk p * (ps0 p + s)))), (a + 1, b, d)%Z) ].

(** second-order terms of Ito's formula: d<IE> = e^{2ku} v du, d<I> = d<I*> = v du,
    d<IE, I> = e^{ku} v du, d<IE, I*> = d<I, I*> = 0 *)
Definition ito_sys (p : par) (i : ito_idx) : list ((R -> R) * ito_idx) :=
  let '(a, b, d) := i in
  let e (s : R) := exp (pk p * (ps0 p + s)) in
  (if (2 <=? a)%Z then v_terms p (fun s => IZR (a * (a - 1)) / 2 * (e s * e s)) (a - 2, b, d)%Z else [])
  ++ (if (2 <=? b)%Z then v_terms p (fun _ => IZR (b * (b - 1)) / 2) (a, b - 2, d)%Z else [])
  ++ (if ((1 <=? a) && (1 <=? b))%Z then v_terms p (fun s => IZR (a * b) * e s) (a - 1, b - 1, d)%Z else [])
  ++ (if (2 <=? d)%Z then v_terms p (fun _ => IZR (d * (d - 1)) / 2) (a, b, d - 2)%Z else []).

Definition ito_init (i : ito_idx) : R := match i with (0, 0, 0)%Z => 1 | _ => 0 end.

(** [M (a,b,d) t] are the conditional joint moments at time s0 + t *)
Definition ito_moments (p : par) (M : ito_idx -> R -> R) : Prop :=
  vsol ito_dom (ito_sys p) ito_init M.

(** values of the symbols of the keys of moment_IEII, in the order of [keyfor]:
    e^{k(n-1)h}, e^{k[t-(n-1)h]}, t-(n-1)h, v_{n-1}, 1/k, theta, sigma_v *)
Definition ivals (p : par) (t : R) : list R :=
  [exp (pk p * ps0 p); exp (pk p * t); t; pv p; / pk p; pth p; psg p].
